(** MacroNames.v - the names in the code that define_varlen generates (varlen_macro/src/lib.rs:264-511) and
    the rules of rustc about them. quote! gives every name it makes up the span of the call, so they live
    in the same scopes as the names the user wrote; the rules below are those rustc applies to each
    generated item: no two fields, functions, generic parameters or variables of one pattern with the same
    name, every name used is declared, with the type its use needs.

    Not modelled: items of the user's module with the same names as generated variables or items, and raw
    identifiers. *)
From Verif Require Export MacroSem.

(** Static types of local variables and of fields of the layout struct: usize, <t as VarLen>::Layout, the
    tuple of references to the controllers. *)
Inductive sty := SNum | SLay (t : nat) | STup.
Definition senv : Type := list (string * sty).
Definition sty_eqb (a b : sty) : bool :=
  match a, b with SNum, SNum | STup, STup => true | SLay t, SLay u => Nat.eqb t u | _, _ => false end.
Definition has (e : senv) (x : string) (t : sty) : bool :=
  match assoc x e with Some u => sty_eqb t u | None => false end.
Fixpoint nodupb (l : list string) : bool :=
  match l with [] => true | x :: r => negb (mem x r) && nodupb r end.

(** The type of a layout entry (271-277). *)
Definition layout_sty (l : layout_ty_tok) : sty := match l with LtLayout t => SLay t | LtUsize => SNum end.
Fixpoint interleave {A} (xs ls : list A) : list A :=
  match xs, ls with x :: xs, l :: ls => x :: l :: interleave xs ls | _, _ => [] end.
(** struct VarLenLayout { size, x, x_layout, y, y_len, .. } (273-279). *)
Definition layout_fields (S : tokens) (g : groups) : senv :=
  ("size"%string, SNum) ::
  combine (interleave (var_names S g) (lay_names S g)) (interleave (map (fun _ => SNum) (var_names S g)) (map layout_sty (g_layout_ty g))).

(** cat_field_fast::<t, _>(self, size), cat_array_field_fast::<t>(lengths::x_len(lengths), size) and their
    cautious versions (880-888, 962-972): the type of the second component of their result. *)
Definition cat_ok (S : tokens) (g : groups) (e : senv) (c : cat_tok) : option sty :=
  if has e "size" SNum then
    match c with
    | CField t i => if mem (render S i) (all_names S g) then Some (SLay t) else None
    | CArray t l => if has e "lengths" STup && mem (render S l) (map (render S) (g_lenexpr_ident g)) then Some SNum else None
    end
  else None.
(** let (x, x_layout, size) = ..; (355-357, 403-405) *)
Fixpoint lets_ok (S : tokens) (g : groups) (xs ls : list string) (cs : list cat_tok) (e : senv) : option senv :=
  match xs, ls, cs with
  | [], [], [] => Some e
  | x :: xs, l :: ls, c :: cs =>
      match cat_ok S g e c with
      | Some t =>
          if nodupb [x; l; "size"%string] then lets_ok S g xs ls cs ((x, SNum) :: (l, t) :: ("size"%string, SNum) :: e) else None
      | None => None
      end
  | _, _, _ => None
  end.
(** calculate_layout (348-365) and calculate_layout_cautious (396-413): the lets, then the struct literal
    VarLenLayout { x, x_layout, .., size }, every field of the declared type. *)
Definition calc_ok (S : tokens) (g : groups) (cs : list cat_tok) : bool :=
  match lets_ok S g (var_names S g) (lay_names S g) cs [("size"%string, SNum); ("lengths"%string, STup)] with
  | Some e => forallb (fun '(x, t) => has e x t) (layout_fields S g)
  | None => false
  end.

(** The fragments that use fields of [self] and [layout]: vdrop (382-388), refs and muts (429-452),
    initialize (415-425). *)
Definition header_field (S : tokens) (g : groups) (i : ident) : bool :=
  match decl_of S g (render S i) with Some (DTy _) => true | _ => false end.
Definition drop_ok (S : tokens) (g : groups) (p : drop_tok) : bool :=
  match p with
  | PInPlace i => header_field S g i
  | PVdrop t o l => has (layout_fields S g) (render S o) SNum && has (layout_fields S g) (render S l) (SLay t)
  | PArray t o l => has (layout_fields S g) (render S o) SNum && has (layout_fields S g) (render S l) SNum
  end.
Definition ref_ok (S : tokens) (g : groups) (r : ref_tok) : bool :=
  match r with
  | RSelf i => header_field S g i
  | RField i => has (layout_fields S g) (render S i) SNum
  | RArray i l => has (layout_fields S g) (render S i) SNum && has (layout_fields S g) (render S l) SNum
  end.
Definition mut_ok (S : tokens) (g : groups) (m : mut_tok) : bool :=
  match m with
  | MRef i => header_field S g i
  | MField i => has (layout_fields S g) (render S i) SNum
  | MArray i l => has (layout_fields S g) (render S i) SNum && has (layout_fields S g) (render S l) SNum
  end.
(** [x: .., ] in the literal of the struct: the type to initialize comes from the declaration of [x]. *)
Definition init_ok_n (S : tokens) (g : groups) (q : string * init_tok) : bool :=
  match snd q, decl_of S g (fst q) with
  | NMove i, Some (DTy _) => mem (render S i) (all_names S g)
  | NField i o l, Some (DFieldMarker t) =>
      mem (render S i) (all_names S g) && has (layout_fields S g) (render S o) SNum && has (layout_fields S g) (render S l) (SLay t)
  | NArray i o l, Some (DArrayMarker t) =>
      mem (render S i) (all_names S g) && has (layout_fields S g) (render S o) SNum && has (layout_fields S g) (render S l) SNum
  | _, _ => false
  end.

(** The keywords of Rust (edition 2021), strict and reserved: [mod type { .. }] is no item. *)
Definition keywords : list string :=
  ["as"; "break"; "const"; "continue"; "crate"; "else"; "enum"; "extern"; "false"; "fn"; "for"; "if"; "impl"; "in";
   "let"; "loop"; "match"; "mod"; "move"; "mut"; "pub"; "ref"; "return"; "self"; "Self"; "static"; "struct";
   "super"; "trait"; "true"; "type"; "unsafe"; "use"; "where"; "while"; "async"; "await"; "dyn"; "abstract";
   "become"; "box"; "do"; "final"; "macro"; "override"; "priv"; "typeof"; "unsized"; "virtual"; "yield"; "try"]%string.
(** The whole expansion: the name of the module is no keyword (266), the module and the struct share a
    namespace (266, 325), the fields of the struct,
    Init, Muts and Refs (299-330), LayoutControllers and the parameters of the length functions (251-262,
    318-323), VarLenLayout, the functions of module lengths (291-296), the generic parameters of Init (299). *)
Definition expansion_ok (S : tokens) (tyname modname : string) (g : groups) : bool :=
  negb (mem modname keywords) && nodupb [modname; tyname] &&
  nodupb (all_names S g) && nodupb (len_names S g) &&
  nodupb (map fst (layout_fields S g)) &&
  nodupb (map (render S) (g_lenexpr_ident g)) &&
  nodupb (map (render S) (g_init_params g)) &&
  calc_ok S g (g_cat_fast g) && calc_ok S g (g_cat_cautious g) &&
  forallb (drop_ok S g) (g_drop_field g) && forallb (ref_ok S g) (g_ref_field g) && forallb (mut_ok S g) (g_mut_field g) &&
  forallb (init_ok_n S g) (combine (all_names S g) (g_init_field g)).
