(** MacroSem.v - the code generated by define_varlen (varlen_macro/src/lib.rs:264-511), executed.

    [MacroFront] models how the macro groups the fields and which fragments it pushes for each of
    them; here the fragments, placed in the quote! template, are given the meaning Rust gives them:
    names are strings, looked up where Rust looks them up (local variables with shadowing, fields of
    [self], fields of the layout object, functions of the module [lengths]), and types are the ones
    written, or inferred from the declared type of the place the expression is assigned to.
    Whatever rustc would reject (an unknown name, a type mismatch, a use after move) is [UB UType]. *)
From Coq Require Export String.
From Verif Require Export MacroFront Access.
Open Scope N_scope.

(** The meaning of the tokens the macro copies from its input without looking at them: the name of a
    field, the case conversion of convert_case (566), the type denoted by a type token (as a
    variable-length type and as a fixed-size type), the value of a length expression under a binding of
    the controllers' names (a value that is no usize: it panics), and rustc's choices for the header: offset of each field, size, alignment. *)
Record tokens := mkTok {
  tk_name : nat -> string; tk_camel : string -> string;
  tk_vty : nat -> vty; tk_fty : nat -> fty;
  tk_expr : nat -> (string -> option (list cell)) -> N;
  tk_off : string -> N; tk_hs : N; tk_ha : N }.

(** Identifiers: mk_layout_ident (562-564), format_ident!("{}_len") (929), mk_init_ident (566-568). *)
Definition render (S : tokens) (i : ident) : string :=
  match i with
  | IName n => tk_name S n
  | ILayout n => (tk_name S n ++ "_layout")%string
  | ILen n => (tk_name S n ++ "_len")%string
  | IInit n => ("Init" ++ tk_camel S (tk_name S n))%string
  end.

(** Lookup of a name: the first (innermost) binding. *)
Fixpoint assoc {A} (x : string) (l : list (string * A)) : option A :=
  match l with
  | [] => None
  | (y, v) :: r => if String.eqb x y then Some v else assoc x r
  end.
Definition mem (x : string) (l : list string) : bool := existsb (String.eqb x) l.
Definition get {A} (o : option A) : M world A := match o with Some a => ret a | None => undef UType end.

(** Values of local variables and of fields of the layout object: a usize, a nested layout, the tuple
    of references to the controllers (represented by the values behind them). *)
Inductive rv := RNum (n : N) | RLay (l : lay) | RTup (cs : list (list cell)).
Definition env : Type := list (string * rv).
Definition get_num (e : env) (x : string) : M world N :=
  match assoc x e with Some (RNum n) => ret n | _ => undef UType end.
Definition get_lay (e : env) (x : string) : M world lay :=
  match assoc x e with Some (RLay l) => ret l | _ => undef UType end.
Definition get_tup (e : env) (x : string) : M world (list (list cell)) :=
  match assoc x e with Some (RTup c) => ret c | _ => undef UType end.

(** ** Names of the generated items *)
Definition all_names (S : tokens) (g : groups) : list string := map (tk_name S) (me_ident (g_all_meta g)).
Definition len_names (S : tokens) (g : groups) : list string := map (tk_name S) (me_ident (g_len_meta g)).
Definition var_names (S : tokens) (g : groups) : list string := map (tk_name S) (me_ident (g_var_meta g)).
Definition lay_names (S : tokens) (g : groups) : list string := map (render S) (g_layout_idents g).
(** The declared type of field [x] of the struct (325-330). *)
Definition decl_of (S : tokens) (g : groups) (x : string) : option decl_tok := assoc x (combine (all_names S g) (g_decl_ty g)).
Definition header_fty (S : tokens) (g : groups) (x : string) : M world fty :=
  match decl_of S g x with Some (DTy t) => ret (tk_fty S t) | _ => undef UType end.

(** [lengths::x_len((l1, l2, ..))] (291-296, with the argument pattern 251-262). *)
Definition call_len (S : tokens) (g : groups) (fn : string) (cs : list (list cell)) : M world N :=
  e <- get (assoc fn (combine (map (render S) (g_lenexpr_ident g)) (g_lenexpr g))) ;;
  len_call (tk_expr S e (fun x => assoc x (combine (len_names S g) cs))).

(** ** calculate_layout (348-365) *)
(** macro_support.rs:117-134 *)
Definition cat_field_fast (t : vty) (parent size : N) : M world (N * lay * N) :=
  let offset := mask_align (wrapping_add size (valign t - 1)) (valign t) in
  check_ref (wrapping_add parent offset) (head_size t) (head_align t) ;;;
  layout <- calc_layout t (wrapping_add parent offset) ;;
  ret (offset, layout, wrapping_add offset (lay_size layout)).
(** macro_support.rs:91-114 *)
Definition cat_field_cautious (t : vty) (i : init) (size : N) : M world (option (N * lay * N)) :=
  match checked_add size (valign t - 1) with
  | None => ret None
  | Some x =>
      let offset := mask_align x (valign t) in
      lo <- init_layout t i ;;
      match lo with
      | None => ret None
      | Some layout =>
          match checked_add offset (lay_size layout) with
          | None => ret None
          | Some size => ret (Some (offset, layout, size))
          end
      end
  end.

(** [let lengths = (&self.l1, ..)] (349-353, 455-459). *)
Definition gen_lengths (S : tokens) (g : groups) (a : N) : M world (list (list cell)) :=
  mapM (fun x => f <- header_fty S g x ;; load (wrapping_add a (tk_off S x)) (f_size f) (f_align f)) (len_names S g).
(** A [cat_field_fast] fragment (885-888, 968-972) in the scope [e], with self at [a]. *)
Definition run_fast (S : tokens) (g : groups) (a : N) (e : env) (c : cat_tok) : M world (N * rv * N) :=
  match c with
  | CField t _ =>
      size <- get_num e "size" ;;
      q <- cat_field_fast (tk_vty S t) a size ;;
      ret (fst (fst q), RLay (snd (fst q)), snd q)
  | CArray t l =>
      cs <- get_tup e "lengths" ;;
      n <- call_len S g (render S l) cs ;;
      size <- get_num e "size" ;;
      let '(off, n, size) := cat_array_field_fast (tk_fty S t) n size in
      ret (off, RNum n, size)
  end.
(** [let (x, x_layout, size) = ..;] binds three names, shadowing earlier ones. *)
Definition bind_cat (e : env) (x l : string) (q : N * rv * N) : env :=
  (x, RNum (fst (fst q))) :: (l, snd (fst q)) :: ("size"%string, RNum (snd q)) :: e.
(** 355-357: the repetition; quote! itself fails if the lists have different lengths. *)
Fixpoint lets_fast (S : tokens) (g : groups) (a : N) (xs ls : list string) (cs : list cat_tok) (e : env) : M world env :=
  match xs, ls, cs with
  | [], [], [] => ret e
  | x :: xs, l :: ls, c :: cs =>
      q <- run_fast S g a e c ;;
      lets_fast S g a xs ls cs (bind_cat e x l q)
  | _, _, _ => undef UType
  end.
(** [VarLenLayout { x, x_layout, .., size }] (358-364, 406-412), with shorthand fields. *)
Fixpoint lay_lit (e : env) (xs ls : list string) : M world env :=
  match xs, ls with
  | [], [] => n <- get_num e "size" ;; ret [("size"%string, RNum n)]
  | x :: xs, l :: ls =>
      v1 <- get (assoc x e) ;; v2 <- get (assoc l e) ;;
      r <- lay_lit e xs ls ;; ret ((x, v1) :: (l, v2) :: r)
  | _, _ => undef UType
  end.
Definition gen_calculate_layout (S : tokens) (g : groups) (a : N) : M world env :=
  cs <- gen_lengths S g a ;;
  e <- lets_fast S g a (var_names S g) (lay_names S g) (g_cat_fast g) [("size"%string, RNum (tk_hs S)); ("lengths"%string, RTup cs)] ;;
  lay_lit e (var_names S g) (lay_names S g).

(** Layout::size of the layout object (281-286). *)
Definition gen_layout_size (nl : env) : M world N := get_num nl "size".

(** ** ALIGN and NEEDS_VDROP (367-380) *)
Definition gen_align (S : tokens) (g : groups) : N :=
  array_max (tk_ha S :: map (fun k => match k with GAlign t => valign (tk_vty S t) | GAlignOf t => f_align (tk_fty S t) end) (g_align g)).
Definition gen_needs_vdrop (S : tokens) (g : groups) : bool :=
  existsb (fun q => match q with QNeedsDrop t => f_drop (tk_fty S t) | QNeedsVdrop t => needs_vdrop (tk_vty S t) end) (g_needs g).

(** ** vdrop (382-388) *)
Definition run_drop (S : tokens) (g : groups) (a : N) (nl : env) (p : drop_tok) : M world unit :=
  match p with
  | PInPlace i => f <- header_fty S g (render S i) ;; drop_leaf f (wrapping_add a (tk_off S (render S i)))
  | PVdrop t o l =>
      off <- get_num nl (render S o) ;; ly <- get_lay nl (render S l) ;;
      check_ref (wrapping_add a off) (head_size (tk_vty S t)) (head_align (tk_vty S t)) ;;;
      vdrop (tk_vty S t) (wrapping_add a off) ly
  | PArray t o l =>
      off <- get_num nl (render S o) ;; n <- get_num nl (render S l) ;;
      drop_array (tk_fty S t) a off n
  end.
Definition gen_vdrop (S : tokens) (g : groups) (a : N) (nl : env) : M world unit :=
  for_each (run_drop S g a nl) (g_drop_field g).

(** ** The Init struct (299-304): one initializer per field, by name *)
Definition self_init : Type := list (string * init).
Definition self_val (self : self_init) (x : string) : M world (list cell) :=
  match assoc x self with Some (IFixed v) => ret v | _ => undef UType end.
(** Drop glue of field [x] of Init: its type is the one declared in the struct, a type parameter
    bounded by [Initializer<t>] or [ArrayInitializer<t>] (390-391). *)
Definition drop_self_field (S : tokens) (g : groups) (self : self_init) (x : string) : M world unit :=
  it <- get (assoc x (combine (all_names S g) (g_init_ty g))) ;;
  i <- get (assoc x self) ;;
  match it with
  | ITy t => match i with IFixed v => drop_value (tk_fty S t) v | _ => undef UType end
  | IParam q =>
      k <- get (assoc (render S q) (combine (map (render S) (g_init_params g)) (g_constraints g))) ;;
      match k with
      | KInit t => drop_init (tk_vty S t) i
      | KArrayInit t => match i with IArrF ai => drop_ainit (tk_fty S t) ai | _ => undef UType end
      end
  end.
(** Drop glue of the fields of Init that were not moved out, in declaration order. *)
Definition drop_self (S : tokens) (g : groups) (self : self_init) (moved : list string) : M world unit :=
  for_each (drop_self_field S g self) (filter (fun x => negb (mem x moved)) (all_names S g)).

(** ** calculate_layout_cautious (396-413) *)
Definition run_cautious (S : tokens) (g : groups) (self : self_init) (e : env) (c : cat_tok) : M world (option (N * rv * N)) :=
  match c with
  | CField t i =>
      i0 <- get (assoc (render S i) self) ;;
      size <- get_num e "size" ;;
      q <- cat_field_cautious (tk_vty S t) i0 size ;;
      ret (option_map (fun q => (fst (fst q), RLay (snd (fst q)), snd q)) q)
  | CArray t l =>
      cs <- get_tup e "lengths" ;;
      n <- call_len S g (render S l) cs ;;
      size <- get_num e "size" ;;
      ret (option_map (fun q => (fst (fst q), RNum (snd (fst q)), snd q)) (cat_array_field_cautious (tk_fty S t) n size))
  end.
(** [let (..) = ..?;] (403-405) *)
Fixpoint lets_cautious (S : tokens) (g : groups) (self : self_init) (xs ls : list string) (cs : list cat_tok) (e : env) : M world (option env) :=
  match xs, ls, cs with
  | [], [], [] => ret (Some e)
  | x :: xs, l :: ls, c :: cs =>
      q <- run_cautious S g self e c ;;
      match q with
      | None => ret None
      | Some q => lets_cautious S g self xs ls cs (bind_cat e x l q)
      end
  | _, _, _ => undef UType
  end.
Definition gen_cautious (S : tokens) (g : groups) (self : self_init) : M world (option env) :=
  cs <- mapM (self_val self) (len_names S g) ;;
  q <- lets_cautious S g self (var_names S g) (lay_names S g) (g_cat_cautious g) [("size"%string, RNum (tk_hs S)); ("lengths"%string, RTup cs)] ;;
  match q with
  | None => ret None
  | Some e => nl <- lay_lit e (var_names S g) (lay_names S g) ;; ret (Some nl)
  end.

(** ** initialize (415-425) *)
(** [Foo { x: .., y: .. }]: the field expressions in order (908-910, 993-995: init_field and init_array
    consume self.x; the type they initialize is inferred from the marker type declared for the target
    field); on unwinding, the operands already evaluated are dropped, then what is left of self. *)
Fixpoint eval_fields (S : tokens) (g : groups) (self : self_init) (dst : N) (nl : env)
    (l : list (string * init_tok)) (moved : list string) (temps : list (fty * list cell)) : M world (list (N * list cell)) :=
  match l with
  | [] => ret []
  | (x, NMove i) :: r =>
      if mem (render S i) moved then undef UType else
      v <- self_val self (render S i) ;;
      f <- header_fty S g x ;;
      vals <- eval_fields S g self dst nl r (render S i :: moved) ((f, v) :: temps) ;;
      ret ((tk_off S x, v) :: vals)
  | (x, NField i o ly) :: r =>
      if mem (render S i) moved then undef UType else
      i0 <- get (assoc (render S i) self) ;;
      off <- get_num nl (render S o) ;; lay <- get_lay nl (render S ly) ;;
      match decl_of S g x with
      | Some (DFieldMarker t) =>
          on_unwind (initialize (tk_vty S t) i0 (wrapping_add dst off) lay)
            (drop_temps temps ;;; drop_self S g self (render S i :: moved)) ;;;
          eval_fields S g self dst nl r (render S i :: moved) temps
      | _ => undef UType
      end
  | (x, NArray i o ln) :: r =>
      if mem (render S i) moved then undef UType else
      i0 <- get (assoc (render S i) self) ;;
      off <- get_num nl (render S o) ;; n <- get_num nl (render S ln) ;;
      match decl_of S g x, i0 with
      | Some (DArrayMarker t), IArrF ai =>
          on_unwind (init_array (tk_fty S t) ai dst off n)
            (drop_temps temps ;;; drop_self S g self (render S i :: moved)) ;;;
          eval_fields S g self dst nl r (render S i :: moved) temps
      | _, _ => undef UType
      end
  end.
Definition gen_initialize (S : tokens) (g : groups) (self : self_init) (dst : N) (nl : env) : M world unit :=
  vals <- eval_fields S g self dst nl (combine (all_names S g) (g_init_field g)) [] [] ;;
  store dst (tk_ha S) (header_bytes (tk_hs S) vals).

(** ** refs and muts (429-452) *)
(** What a user reads through one field of Refs: its expression and its declared type. *)
Definition run_ref (S : tokens) (g : groups) (a : N) (nl : env) (r : ref_tok) (rt : ref_ty_tok) : M world vval :=
  match r, rt with
  | RSelf i, RtRef _ =>
      f <- header_fty S g (render S i) ;;
      bs <- load (wrapping_add a (tk_off S (render S i))) (f_size f) (f_align f) ;; ret (VFix bs)
  | RField i, RtRef t =>
      off <- get_num nl (render S i) ;;
      check_ref (wrapping_add a off) (head_size (tk_vty S t)) (head_align (tk_vty S t)) ;;;
      view (tk_vty S t) (wrapping_add a off)
  | RArray i l, RtSlice t =>
      off <- get_num nl (render S i) ;; n <- get_num nl (render S l) ;;
      xs <- read_array (tk_fty S t) a off n ;; ret (VArr xs)
  | _, _ => undef UType
  end.
(** Reading every field of refs(), in declaration order, by name. (Creating all references first and
    reading them afterwards is the same: the checks have no effects.) *)
Fixpoint run_refs (S : tokens) (g : groups) (a : N) (nl : env) (l : list (string * (ref_tok * ref_ty_tok))) : M world (list (string * vval)) :=
  match l with
  | [] => ret []
  | (x, (r, rt)) :: l =>
      v <- run_ref S g a nl r rt ;; vs <- run_refs S g a nl l ;; ret ((x, v) :: vs)
  end.
Definition gen_refs (S : tokens) (g : groups) (a : N) : M world (list (string * vval)) :=
  nl <- gen_calculate_layout S g a ;;
  run_refs S g a nl (combine (all_names S g) (combine (g_ref_field g) (g_ref_ty g))).
(** The leaf reached through field [x] of muts() and the path [p] inside it. *)
Definition gen_mut (S : tokens) (g : groups) (a : N) (x : string) (p : path) : M world (N * fty) :=
  nl <- gen_calculate_layout S g a ;;
  m <- get (assoc x (combine (all_names S g) (g_mut_field g))) ;;
  mt <- get (assoc x (combine (all_names S g) (g_mut_ty g))) ;;
  match m, mt with
  | MRef i, MtMut _ =>
      match p with
      | PHere => f <- header_fty S g (render S i) ;; ret (wrapping_add a (tk_off S (render S i)), f)
      | _ => undef UType
      end
  | MField i, MtPin t =>
      off <- get_num nl (render S i) ;;
      check_ref (wrapping_add a off) (head_size (tk_vty S t)) (head_align (tk_vty S t)) ;;;
      locate (tk_vty S t) (wrapping_add a off) p
  | MArray i l, MtSlice t =>
      match p with
      | PIdx k => off <- get_num nl (render S i) ;; n <- get_num nl (render S l) ;; elem_mut (tk_fty S t) a off n k
      | _ => undef UType
      end
  | _, _ => undef UType
  end.

(** ** try_set_layout_controllers (454-482) *)
(** The argument: a LayoutControllers struct (318-323), by name. *)
Definition ctl_drop (S : tokens) (g : groups) (lc : list (string * list cell)) (xs : list string) : M world unit :=
  for_each (fun x =>
    v <- get (assoc x lc) ;; t <- get (assoc x (combine (len_names S g) (g_len_tys g))) ;;
    drop_value (tk_fty S t) v) xs.
(** [self_mut.x = layout_controllers.x;] (474-476). [dp v]: the destructor of v panics; the new value
    is stored nevertheless and the fields not yet moved are dropped. *)
Fixpoint ctl_assign (S : tokens) (g : groups) (a : N) (dp : list cell -> bool) (lc : list (string * list cell)) (xs : list string) : M world unit :=
  match xs with
  | [] => ret tt
  | x :: r =>
      f <- header_fty S g x ;;
      v <- get (assoc x lc) ;;
      old <- load (wrapping_add a (tk_off S x)) (f_size f) (f_align f) ;;
      drop_value f old ;;;
      store (wrapping_add a (tk_off S x)) (f_align f) v ;;;
      if f_drop f && dp old then ctl_drop S g lc r ;;; panic else ctl_assign S g a dp lc r
  end.
Definition gen_try_set (S : tokens) (g : groups) (a : N) (dp : list cell -> bool) (lc : list (string * list cell)) : M world bool :=
  before <- gen_lengths S g a ;;
  after <- mapM (fun x => get (assoc x lc)) (len_names S g) ;;
  valid <- on_unwind (mapM (fun i =>
      x <- call_len S g (render S i) before ;; y <- call_len S g (render S i) after ;; ret (x =? y)) (g_lenexpr_ident g))
    (ctl_drop S g lc (len_names S g)) ;;
  if forallb (fun b => b) valid
  then ctl_assign S g a dp lc (len_names S g) ;;; ret true
  else ctl_drop S g lc (len_names S g) ;;; ret false.
