(** MacroFront.v - the front end of the define_varlen macro (varlen_macro/src/lib.rs). *)
From Verif Require Export Base.

(** Attributes on a field. Any attribute other than the three recognised ones is [AOther]. *)
Inductive attr := AVarlen | AVarlenArray | ALayout | AOther (id : nat).
(** varlen_macro/src/lib.rs:1013-1018 *)
Inductive field_type := FtNormal | FtLength | FtVarlen | FtVarlenArray.
Definition ft_is_normal (t : field_type) : bool := match t with FtNormal => true | _ => false end.

(** The closure [set_type] (1031-1039): state is the field type and the error flag. *)
Definition set_type (st : field_type * bool) (t : field_type) : field_type * bool :=
  if negb (ft_is_normal (fst st)) then (fst st, true) else (t, snd st).
(** One call of the retain closure (1041-1054): new state and whether the attribute is kept. *)
Definition retain_step (st : field_type * bool) (a : attr) : (field_type * bool) * bool :=
  match a with
  | AVarlenArray => (set_type st FtVarlenArray, false)
  | ALayout => (set_type st FtLength, false)
  | AVarlen => (set_type st FtVarlen, false)
  | AOther _ => (st, true)
  end.
(** f.attrs.retain(..) *)
Fixpoint retain (st : field_type * bool) (l : list attr) : (field_type * bool) * list attr :=
  match l with
  | [] => (st, [])
  | a :: r =>
      let '(st1, keep) := retain_step st a in
      let '(st2, out) := retain st1 r in
      (st2, if keep then a :: out else out)
  end.
(** The classification of one field in [parse_fields] (1027-1063): None is the error. *)
Definition classify (l : list attr) : option (field_type * list attr) :=
  let '((ft, err), kept) := retain (FtNormal, false) l in
  if err then None else Some (ft, kept).

(** ** Visibilities *)

(** syn::Visibility, as far as try_parse distinguishes it; [VIn p] is pub(in path) or any other
    restricted path. *)
Inductive visibility := VPub | VCrateKw | VRestrCrate | VRestrSuper | VRestrSelf | VIn (p : list nat) | VInherited.
(** 514-520 *)
Inductive simple_vis := SPrivate | SSuper | SSuperSuper | SCrate | SPublic.
(** SimpleVisibility::try_parse (542-559): (outer, one module deeper). *)
Definition try_parse (v : visibility) : option (simple_vis * simple_vis) :=
  match v with
  | VPub => Some (SPublic, SPublic)
  | VCrateKw => Some (SCrate, SCrate)
  | VRestrCrate => Some (SCrate, SCrate)
  | VRestrSuper => Some (SSuper, SSuperSuper)
  | VRestrSelf => Some (SPrivate, SSuper)
  | VIn _ => None
  | VInherited => Some (SPrivate, SSuper)
  end.
(** SimpleVisibility::to_tokens (523-531): the emitted visibility syntax. *)
Inductive vtokens := TkNone | TkPubSuper | TkPubInSuperSuper | TkPubCrate | TkPub.
Definition to_tokens (s : simple_vis) : vtokens :=
  match s with
  | SPrivate => TkNone
  | SSuper => TkPubSuper
  | SSuperSuper => TkPubInSuperSuper
  | SCrate => TkPubCrate
  | SPublic => TkPub
  end.

(** ** Grouping of the fields *)

(** A field of the struct: name, attributes, visibility, whether its declared type is an array, and
    its type (an opaque token; for an array, the element type and the length expression). *)
Record fdecl := mkFd { fd_name : nat; fd_attrs : list attr; fd_vis : visibility; fd_array : bool; fd_ty : nat; fd_len : nat }.

(** The token fragments pushed for one field (push_normal 792-823, push_length 825-859,
    push_varlen 861-924, push_varlen_array 926-1009). Identifiers derived from a field name are kept
    symbolic: [ILayout n] is n_layout (mk_layout_ident, 562), [ILen n] is n_len (929), [IInit n] is
    the initializer type parameter (mk_init_ident, 566). *)
Inductive ident := IName (n : nat) | ILayout (n : nat) | ILen (n : nat) | IInit (n : nat).
Inductive decl_tok := DTy (t : nat) | DFieldMarker (t : nat) | DArrayMarker (t : nat).
Inductive init_ty_tok := ITy (t : nat) | IParam (i : ident).
Inductive ref_tok := RSelf (i : ident) | RField (i : ident) | RArray (i l : ident).
Inductive mut_tok := MRef (i : ident) | MField (i : ident) | MArray (i l : ident).
Inductive mut_ty_tok := MtMut (t : nat) | MtShared (t : nat) | MtPin (t : nat) | MtSlice (t : nat).
Inductive init_tok := NMove (i : ident) | NField (i o l : ident) | NArray (i o l : ident).
Inductive drop_tok := PInPlace (i : ident) | PVdrop (t : nat) (o l : ident) | PArray (t : nat) (o l : ident).
Inductive needs_tok := QNeedsDrop (t : nat) | QNeedsVdrop (t : nat).
(** [CField t i]: cat_field_cautious::<t, _>(&self.i, size), or cat_field_fast::<t, _>(self, size). *)
Inductive cat_tok := CField (t : nat) (i : ident) | CArray (t : nat) (l : ident).
Inductive align_tok := GAlign (t : nat) | GAlignOf (t : nat).
(** &'a t, &'a [t] *)
Inductive ref_ty_tok := RtRef (t : nat) | RtSlice (t : nat).
(** Initializer<t>, ArrayInitializer<t> *)
Inductive constr_tok := KInit (t : nat) | KArrayInit (t : nat).
(** <t as VarLen>::Layout, usize *)
Inductive layout_ty_tok := LtLayout (t : nat) | LtUsize.
(** struct Meta (598-625) and OneMeta (571-595). *)
Record meta := mkMeta { me_attrs : list (list attr); me_vis : list simple_vis; me_inner : list simple_vis; me_ident : list nat }.
Definition meta_new : meta := mkMeta [] [] [] [].
Definition one_meta : Type := list attr * simple_vis * simple_vis * nat.
Definition one_parse (f : fdecl) : option one_meta :=
  match try_parse (fd_vis f) with
  | None => None
  | Some (v, vi) => Some (fd_attrs f, v, vi, fd_name f)
  end.
Definition meta_push (m : meta) (o : one_meta) : meta :=
  let '(a, v, vi, n) := o in
  mkMeta (me_attrs m ++ [a]) (me_vis m ++ [v]) (me_inner m ++ [vi]) (me_ident m ++ [n]).
(** LengthFields (627-641), LengthExprs (761-773), FieldMarkers (683-718), AllFields (721-759),
    FieldGroups (775-790). *)
Record groups := mkG {
  g_len_meta : meta; g_len_tys : list nat;
  g_lenexpr_ident : list ident; g_lenexpr : list nat;
  g_var_meta : meta; g_init_params : list ident; g_constraints : list constr_tok;
  g_layout_idents : list ident; g_layout_ty : list layout_ty_tok;
  g_cat_cautious : list cat_tok; g_cat_fast : list cat_tok; g_align : list align_tok;
  g_all_meta : meta; g_decl_ty : list decl_tok; g_init_ty : list init_ty_tok; g_ref_ty : list ref_ty_tok; g_mut_ty : list mut_ty_tok;
  g_init_field : list init_tok; g_ref_field : list ref_tok; g_mut_field : list mut_tok;
  g_drop_field : list drop_tok; g_needs : list needs_tok }.
Definition groups_new : groups :=
  mkG meta_new [] [] [] meta_new [] [] [] [] [] [] [] meta_new [] [] [] [] [] [] [] [] [].

Definition push_all (g : groups) (o : one_meta) (d : decl_tok) (it : init_ty_tok) (rt : ref_ty_tok) (mt : mut_ty_tok)
    (i : init_tok) (r : ref_tok) (m : mut_tok) (p : drop_tok) (q : needs_tok) : groups :=
  mkG (g_len_meta g) (g_len_tys g) (g_lenexpr_ident g) (g_lenexpr g) (g_var_meta g)
    (g_init_params g) (g_constraints g) (g_layout_idents g) (g_layout_ty g) (g_cat_cautious g)
    (g_cat_fast g) (g_align g) (meta_push (g_all_meta g) o) (g_decl_ty g ++ [d])
    (g_init_ty g ++ [it]) (g_ref_ty g ++ [rt]) (g_mut_ty g ++ [mt]) (g_init_field g ++ [i])
    (g_ref_field g ++ [r]) (g_mut_field g ++ [m]) (g_drop_field g ++ [p]) (g_needs g ++ [q]).
Definition push_len_part (g : groups) (o : one_meta) (t : nat) : groups :=
  mkG (meta_push (g_len_meta g) o) (g_len_tys g ++ [t]) (g_lenexpr_ident g) (g_lenexpr g)
    (g_var_meta g) (g_init_params g) (g_constraints g) (g_layout_idents g) (g_layout_ty g)
    (g_cat_cautious g) (g_cat_fast g) (g_align g) (g_all_meta g) (g_decl_ty g) (g_init_ty g)
    (g_ref_ty g) (g_mut_ty g) (g_init_field g) (g_ref_field g) (g_mut_field g) (g_drop_field g)
    (g_needs g).
Definition push_expr_part (g : groups) (i : ident) (e : nat) : groups :=
  mkG (g_len_meta g) (g_len_tys g) (g_lenexpr_ident g ++ [i]) (g_lenexpr g ++ [e])
    (g_var_meta g) (g_init_params g) (g_constraints g) (g_layout_idents g) (g_layout_ty g)
    (g_cat_cautious g) (g_cat_fast g) (g_align g) (g_all_meta g) (g_decl_ty g) (g_init_ty g)
    (g_ref_ty g) (g_mut_ty g) (g_init_field g) (g_ref_field g) (g_mut_field g) (g_drop_field g)
    (g_needs g).
Definition push_var_part (g : groups) (o : one_meta) (ip : ident) (k : constr_tok) (li : ident) (lt : layout_ty_tok)
    (cc cf : cat_tok) (al : align_tok) : groups :=
  mkG (g_len_meta g) (g_len_tys g) (g_lenexpr_ident g) (g_lenexpr g)
    (meta_push (g_var_meta g) o) (g_init_params g ++ [ip]) (g_constraints g ++ [k])
    (g_layout_idents g ++ [li]) (g_layout_ty g ++ [lt]) (g_cat_cautious g ++ [cc])
    (g_cat_fast g ++ [cf]) (g_align g ++ [al]) (g_all_meta g) (g_decl_ty g) (g_init_ty g)
    (g_ref_ty g) (g_mut_ty g) (g_init_field g) (g_ref_field g) (g_mut_field g) (g_drop_field g)
    (g_needs g).

(** 792-823 *)
Definition push_normal (g : groups) (f : fdecl) : option groups :=
  match one_parse f with
  | None => None
  | Some o => let i := IName (fd_name f) in let t := fd_ty f in
      Some (push_all g o (DTy t) (ITy t) (RtRef t) (MtMut t) (NMove i) (RSelf i) (MRef i) (PInPlace i) (QNeedsDrop t))
  end.
(** 825-859 *)
Definition push_length (g : groups) (f : fdecl) : option groups :=
  match one_parse f with
  | None => None
  | Some o => let i := IName (fd_name f) in let t := fd_ty f in
      Some (push_all (push_len_part g o t) o (DTy t) (ITy t) (RtRef t) (MtShared t) (NMove i) (RSelf i) (MRef i) (PInPlace i) (QNeedsDrop t))
  end.
(** 861-924 *)
Definition push_varlen (g : groups) (f : fdecl) : option groups :=
  match one_parse f with
  | None => None
  | Some o => let i := IName (fd_name f) in let l := ILayout (fd_name f) in let p := IInit (fd_name f) in let t := fd_ty f in
      Some (push_all (push_var_part g o p (KInit t) l (LtLayout t) (CField t i) (CField t i) (GAlign t)) o
             (DFieldMarker t) (IParam p) (RtRef t) (MtPin t) (NField i i l) (RField i) (MField i) (PVdrop t i l) (QNeedsVdrop t))
  end.
(** 926-1009 *)
Definition push_varlen_array (g : groups) (f : fdecl) : option groups :=
  match one_parse f with
  | None => None
  | Some o => let i := IName (fd_name f) in let l := ILen (fd_name f) in let p := IInit (fd_name f) in let t := fd_ty f in
      if fd_array f then
        Some (push_all (push_var_part (push_expr_part g l (fd_len f)) o p (KArrayInit t) l LtUsize (CArray t l) (CArray t l) (GAlignOf t)) o
               (DArrayMarker t) (IParam p) (RtSlice t) (MtSlice t) (NArray i i l) (RArray i l) (MArray i l) (PArray t i l) (QNeedsDrop t))
      else None
  end.
(** One iteration of the loop of parse_fields (1027-1063). *)
Definition parse_one (g : groups) (f : fdecl) : option groups :=
  match classify (fd_attrs f) with
  | None => None
  | Some (ft, kept) =>
      let f := mkFd (fd_name f) kept (fd_vis f) (fd_array f) (fd_ty f) (fd_len f) in
      match ft with
      | FtNormal => push_normal g f
      | FtLength => push_length g f
      | FtVarlen => push_varlen g f
      | FtVarlenArray => push_varlen_array g f
      end
  end.
(** parse_fields (1020-1066). *)
Fixpoint parse_from (g : groups) (fs : list fdecl) : option groups :=
  match fs with
  | [] => Some g
  | f :: r => match parse_one g f with None => None | Some g' => parse_from g' r end
  end.
Definition parse_fields (fs : list fdecl) : option groups := parse_from groups_new fs.
