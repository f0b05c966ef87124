(** GenericsSpec.v - what it means for generated code to resolve its generic names. *)
From Verif Require Export MacroGenerics.

(** All names a type mentions, wherever they stand: the first segment of a path (T in T::Item), every
    argument, every lifetime, and names in length and const expressions. *)
Definition says_head (p : path) : list gname := match p with PNil => [] | PCons n _ _ => [NId n] end.
Fixpoint says_ty (t : ty) : list gname :=
  match t with
  | TyPath QNone p => says_head p ++ says_path p
  | TyPath (QSelf t) p => says_ty t ++ says_path p
  | TyRef (Some l) t => NLt l :: says_ty t
  | TyRef None t => says_ty t
  | TyArray t e => says_ty t ++ says_expr e
  | TySlice t => says_ty t
  | TyTup ts => says_tys ts
  end
with says_tys (ts : tys) : list gname :=
  match ts with TsNil => [] | TsCons t r => says_ty t ++ says_tys r end
with says_path (p : path) : list gname :=
  match p with PNil => [] | PCons _ a r => says_args a ++ says_path r end
with says_args (a : gargs) : list gname :=
  match a with ANil => [] | ACons x r => says_arg x ++ says_args r end
with says_arg (x : garg) : list gname :=
  match x with GLt l => [NLt l] | GTy t => says_ty t | GConst e => says_expr e end
with says_expr (e : expr) : list gname :=
  match e with
  | ELit _ => []
  | EPath p => says_head p ++ says_path p
  | EOp a b => says_expr a ++ says_expr b
  | ECast e t => says_expr e ++ says_ty t
  end.
Definition says_item (x : item) : list gname := flat_map says_ty (it_types x) ++ flat_map says_expr (it_exprs x).
Definition param_names (d : gdef) : list gname := map gp_name (gd_params d).

(** rustc resolves an item: a mentioned name that is a parameter of the definition is declared by the
    item, and no name is declared twice. *)
Definition item_resolves (d : gdef) (x : item) : Prop :=
  (forall g, In g (says_item x) -> In g (param_names d) -> In g (it_decl x)) /\ NoDup (it_decl x).
(** rustc accepts the names of the whole expansion. *)
Definition resolves (d : gdef) : Prop :=
  Forall (item_resolves d) (items d) /\ defaults_given d = true.

(** An instance of a definition changes only the parameters of the definition. *)
Definition instance_of (d : gdef) (s : inst) : Prop := forall g, s g <> None -> In g (param_names d).

(** A type written without projections from a parameter (T::Item) and without parameters in length or
    const expressions ([u8; N], A<{N}>). *)
Fixpoint plain_ty (ps : list gname) (t : ty) : Prop :=
  match t with
  | TyPath QNone (PCons n ANil PNil) => True
  | TyPath QNone (PCons n a r) => ~ In (NId n) ps /\ plain_args ps a /\ plain_path ps r
  | TyPath QNone PNil => True
  | TyPath (QSelf t) p => plain_ty ps t /\ plain_path ps p
  | TyRef _ t => plain_ty ps t
  | TyArray t e => plain_ty ps t /\ plain_expr ps e
  | TySlice t => plain_ty ps t
  | TyTup ts => plain_tys ps ts
  end
with plain_tys (ps : list gname) (ts : tys) : Prop :=
  match ts with TsNil => True | TsCons t r => plain_ty ps t /\ plain_tys ps r end
with plain_path (ps : list gname) (p : path) : Prop :=
  match p with PNil => True | PCons _ a r => plain_args ps a /\ plain_path ps r end
with plain_args (ps : list gname) (a : gargs) : Prop :=
  match a with ANil => True | ACons x r => plain_arg ps x /\ plain_args ps r end
with plain_arg (ps : list gname) (x : garg) : Prop :=
  match x with GLt _ => True | GTy t => plain_ty ps t | GConst e => plain_expr ps e end
with plain_expr (ps : list gname) (e : expr) : Prop :=
  match e with
  | ELit _ => True
  | EPath p => (forall g, In g (says_head p) -> ~ In g ps) /\ plain_path ps p
  | EOp a b => plain_expr ps a /\ plain_expr ps b
  | ECast e t => plain_expr ps e /\ plain_ty ps t
  end.

(** Where a name stands in a type as a whole type or generic argument of its own (T, &'b U, A<T>,
    <T as Tr>::X), as opposed to the head of a longer path (T::Item) or part of an expression. *)
Inductive occ_ty (g : gname) : ty -> Prop :=
| O_name : forall n, g = NId n -> occ_ty g (TyPath QNone (PCons n ANil PNil))
| O_qself : forall t p, occ_ty g t -> occ_ty g (TyPath (QSelf t) p)
| O_path : forall q p, occ_path g p -> occ_ty g (TyPath q p)
| O_lt : forall l t, g = NLt l -> occ_ty g (TyRef (Some l) t)
| O_ref : forall l t, occ_ty g t -> occ_ty g (TyRef l t)
| O_elem : forall t e, occ_ty g t -> occ_ty g (TyArray t e)
| O_len : forall t e, occ_expr g e -> occ_ty g (TyArray t e)
| O_slice : forall t, occ_ty g t -> occ_ty g (TySlice t)
| O_tup : forall ts, occ_tys g ts -> occ_ty g (TyTup ts)
with occ_tys (g : gname) : tys -> Prop :=
| O_first : forall t r, occ_ty g t -> occ_tys g (TsCons t r)
| O_rest : forall t r, occ_tys g r -> occ_tys g (TsCons t r)
with occ_path (g : gname) : path -> Prop :=
| O_args : forall n a r, occ_args g a -> occ_path g (PCons n a r)
| O_next : forall n a r, occ_path g r -> occ_path g (PCons n a r)
with occ_args (g : gname) : gargs -> Prop :=
| O_arg_lt : forall l r, g = NLt l -> occ_args g (ACons (GLt l) r)
| O_arg_ty : forall t r, occ_ty g t -> occ_args g (ACons (GTy t) r)
| O_arg_const : forall e r, occ_expr g e -> occ_args g (ACons (GConst e) r)
| O_more : forall a r, occ_args g r -> occ_args g (ACons a r)
(* inside an expression: only in the generic arguments and types written there *)
with occ_expr (g : gname) : expr -> Prop :=
| O_epath : forall p, occ_path g p -> occ_expr g (EPath p)
| O_left : forall a b, occ_expr g a -> occ_expr g (EOp a b)
| O_right : forall a b, occ_expr g b -> occ_expr g (EOp a b)
| O_cast : forall e t, occ_expr g e -> occ_expr g (ECast e t)
| O_cast_ty : forall e t, occ_ty g t -> occ_expr g (ECast e t).

(** A header field (plain or controls_layout), a length expression, a varlen field mentions a name. *)
Definition in_header (d : gdef) (g : gname) : Prop :=
  exists t, (In (GfNormal t) (gd_fields d) \/ In (GfLength t) (gd_fields d)) /\ In g (says_ty t).
Definition in_length (d : gdef) (g : gname) : Prop :=
  exists t e, In (GfArray t e) (gd_fields d) /\ In g (says_expr e).
Definition in_varlen (d : gdef) (g : gname) : Prop :=
  exists t, In (GfVarlen t) (gd_fields d) /\ In g (says_ty t).
(** ... a varlen field mentions it as a whole type or argument. *)
Definition found (d : gdef) (g : gname) : Prop :=
  exists t, In (GfVarlen t) (gd_fields d) /\ occ_ty g t.
Definition some_mention (ts : list ty) (g : gname) : Prop := exists t, In t ts /\ In g (says_ty t).
(** The types of the header fields, in order. *)
Inductive header_types : list gfield -> list ty -> Prop :=
| H_nil : header_types [] []
| H_normal : forall t fs ts, header_types fs ts -> header_types (GfNormal t :: fs) (t :: ts)
| H_length : forall t fs ts, header_types fs ts -> header_types (GfLength t :: fs) (t :: ts)
| H_varlen : forall t fs ts, header_types fs ts -> header_types (GfVarlen t :: fs) ts
| H_array : forall t e fs ts, header_types fs ts -> header_types (GfArray t e :: fs) ts.
