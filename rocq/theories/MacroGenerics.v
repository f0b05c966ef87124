(** MacroGenerics.v - generics in the define_varlen macro (varlen_macro/src/lib.rs: GenericRefs 643-680,
    parse_generics 1070-1119, and which generics each generated item declares, 250-430). *)
From Verif Require Export Base.

(** The part of syn's types that matters for name resolution. A path is a list of segments with generic
    arguments; [QSelf t] is the <t as ..>:: in front of a path. Function pointers, trait objects and
    other type constructors are [TyTup] of their parts. An array length or const argument is an
    expression; blocks, calls, etc. are [EOp] of their parts. Local binders (for<'b>, let) are left out. *)
Inductive ty :=
| TyPath (q : qself) (p : path)
| TyRef (lt : option nat) (t : ty)
| TyArray (t : ty) (e : expr)
| TySlice (t : ty)
| TyTup (ts : tys)
with tys := TsNil | TsCons (t : ty) (ts : tys)
with qself := QNone | QSelf (t : ty)
with path := PNil | PCons (name : nat) (args : gargs) (p : path)
with gargs := ANil | ACons (a : garg) (r : gargs)
with garg := GLt (lt : nat) | GTy (t : ty) | GConst (e : expr)
with expr := ELit (n : nat) | EPath (p : path) | EOp (e1 e2 : expr) | ECast (e : expr) (t : ty).

(** Names of generic parameters: types and consts share a name space, lifetimes have their own. *)
Inductive gname := NId (n : nat) | NLt (n : nat).
Definition gname_eqb (a b : gname) : bool :=
  match a, b with NId x, NId y | NLt x, NLt y => Nat.eqb x y | _, _ => false end.

(** GenericRefs as a visitor (661-680). [visit_type_path] records the identifier of a path of one
    segment without arguments and without qself (syn's get_ident), and otherwise visits the qself and
    the arguments of the segments; [visit_lifetime] records the lifetime; everything else is syn's
    default traversal, which records no identifier. *)
Fixpoint visit_ty (t : ty) : list gname :=
  match t with
  | TyPath QNone (PCons n ANil PNil) => [NId n]
  | TyPath q p => visit_q q ++ visit_path p
  | TyRef (Some l) t => NLt l :: visit_ty t
  | TyRef None t => visit_ty t
  | TyArray t e => visit_ty t ++ visit_expr e
  | TySlice t => visit_ty t
  | TyTup ts => visit_tys ts
  end
with visit_tys (ts : tys) : list gname :=
  match ts with TsNil => [] | TsCons t r => visit_ty t ++ visit_tys r end
with visit_q (q : qself) : list gname :=
  match q with QNone => [] | QSelf t => visit_ty t end
with visit_path (p : path) : list gname :=
  match p with PNil => [] | PCons _ a r => visit_args a ++ visit_path r end
with visit_args (a : gargs) : list gname :=
  match a with ANil => [] | ACons x r => visit_arg x ++ visit_args r end
with visit_arg (x : garg) : list gname :=
  match x with GLt l => [NLt l] | GTy t => visit_ty t | GConst e => visit_expr e end
with visit_expr (e : expr) : list gname :=
  match e with
  | ELit _ => []
  | EPath p => visit_path p
  | EOp a b => visit_expr a ++ visit_expr b
  | ECast e t => visit_expr e ++ visit_ty t
  end.

(** A generic parameter of the definition: name, whether it has a default, and the types its bounds
    mention. Lifetime parameters have no default. *)
Record gparam := mkGp { gp_name : gname; gp_default : bool; gp_bounds : list ty }.
(** Whether the filter of parse_generics keeps a parameter (1078-1083, 1090-1095, 1103-1108). *)
Definition kept (filter : option (list gname)) (p : gparam) : bool :=
  match filter with None => true | Some l => existsb (gname_eqb (gp_name p)) l end.
Definition no_default (p : gparam) : gparam := mkGp (gp_name p) false (gp_bounds p).
(** parse_generics (1070-1119): (structdef_params, impl_params, apply_params); the where clause is
    passed through unchanged. *)
Definition parse_generics (ps : list gparam) (filter : option (list gname)) : list gparam * list gparam * list gname :=
  let l := List.filter (kept filter) ps in (l, map no_default l, map gp_name l).

(** The fields of the definition (the kinds of field_type, 1013-1018). *)
Inductive gfield := GfNormal (t : ty) | GfLength (t : ty) | GfVarlen (t : ty) | GfArray (elem : ty) (len : expr).
Record gdef := mkGd { gd_params : list gparam; gd_where : list ty; gd_fields : list gfield }.
(** layout_ty_refs: only push_varlen adds to it (878); push_varlen_array does not (its layout is usize). *)
Definition layout_refs (fs : list gfield) : list gname :=
  flat_map (fun f => match f with GfVarlen t => visit_ty t | _ => [] end) fs.
Definition layout_filter (d : gdef) : option (list gname) := Some (layout_refs (gd_fields d)).

(** A generated item: the generics it declares, and the types and expressions written in it. *)
Record item := mkItem { it_decl : list gname; it_types : list ty; it_exprs : list expr }.
Definition field_ty (f : gfield) : ty := match f with GfNormal t | GfLength t | GfVarlen t | GfArray t _ => t end.
Definition header_tys (fs : list gfield) : list ty :=
  flat_map (fun f => match f with GfNormal t | GfLength t => [t] | _ => [] end) fs.
Definition length_tys (fs : list gfield) : list ty :=
  flat_map (fun f => match f with GfLength t => [t] | _ => [] end) fs.
Definition varlen_tys (fs : list gfield) : list ty :=
  flat_map (fun f => match f with GfVarlen t => [t] | _ => [] end) fs.
Definition len_exprs (fs : list gfield) : list expr :=
  flat_map (fun f => match f with GfArray _ e => [e] | _ => [] end) fs.
Definition names (r : list gparam * list gparam * list gname) : list gname := snd r.
Definition bounds (r : list gparam * list gparam * list gname) : list ty := flat_map gp_bounds (fst (fst r)).
(** The lifetime 'a that Muts and Refs declare themselves. *)
Definition lt_a : gname := NLt 0.
(** 271-342: the module. VarLenLayout (274-281) and its Layout impl (283-288) declare the filtered
    generics and repeat the where clause; each length function (291-297) and LayoutControllers (322-327)
    declare none; Init (300-305) declares only the initializer types (which no user type can name);
    Muts and Refs (307-319) declare 'a and all generics, without the where clause. *)
Definition item_layout (d : gdef) : item :=
  let g := parse_generics (gd_params d) (layout_filter d) in
  mkItem (names g) (bounds g ++ gd_where d ++ varlen_tys (gd_fields d)) [].
Definition item_lengths (d : gdef) : item := mkItem [] (length_tys (gd_fields d)) (len_exprs (gd_fields d)).
Definition item_init (d : gdef) : item := mkItem [] (header_tys (gd_fields d)) [].
Definition item_refs (d : gdef) : item :=
  let g := parse_generics (gd_params d) None in
  mkItem (lt_a :: names g) (bounds g ++ map field_ty (gd_fields d)) [].
Definition item_controllers (d : gdef) : item := mkItem [] (length_tys (gd_fields d)) [].
(** 330-430: the struct itself and the impls declare all generics and the where clause. *)
Definition item_struct (d : gdef) : item :=
  let g := parse_generics (gd_params d) None in
  mkItem (names g) (bounds g ++ gd_where d ++ map field_ty (gd_fields d)) [].
Definition items (d : gdef) : list item :=
  [item_layout d; item_lengths d; item_init d; item_refs d; item_controllers d; item_struct d].
(** size_of::<tyname>() in calculate_layout_cautious (402) names the struct without arguments, in type
    position: rustc takes the defaults, so every type and const parameter must have one. *)
Definition defaults_given (d : gdef) : bool :=
  forallb (fun p => match gp_name p with NLt _ => true | NId _ => gp_default p end) (gd_params d).

(** ** Instances *)
(** What an instance puts for each parameter. *)
Definition inst := gname -> option garg.
(** The type rustc sees in an instance: parameters are replaced. T::X becomes <t>::X; a const parameter
    written as a type argument becomes a const argument. *)
Fixpoint inst_ty (s : inst) (t : ty) : ty :=
  match t with
  | TyPath QNone (PCons n ANil PNil) =>
      match s (NId n) with Some (GTy t) => t | _ => TyPath QNone (PCons n ANil PNil) end
  | TyPath QNone (PCons n a r) =>
      match s (NId n) with
      | Some (GTy t) => TyPath (QSelf t) (inst_path s r)
      | _ => TyPath QNone (PCons n (inst_args s a) (inst_path s r))
      end
  | TyPath q p => TyPath (inst_q s q) (inst_path s p)
  | TyRef (Some l) t => TyRef (match s (NLt l) with Some (GLt l') => Some l' | _ => Some l end) (inst_ty s t)
  | TyRef None t => TyRef None (inst_ty s t)
  | TyArray t e => TyArray (inst_ty s t) (inst_expr s e)
  | TySlice t => TySlice (inst_ty s t)
  | TyTup ts => TyTup (inst_tys s ts)
  end
with inst_tys (s : inst) (ts : tys) : tys :=
  match ts with TsNil => TsNil | TsCons t r => TsCons (inst_ty s t) (inst_tys s r) end
with inst_q (s : inst) (q : qself) : qself :=
  match q with QNone => QNone | QSelf t => QSelf (inst_ty s t) end
with inst_path (s : inst) (p : path) : path :=
  match p with PNil => PNil | PCons n a r => PCons n (inst_args s a) (inst_path s r) end
with inst_args (s : inst) (a : gargs) : gargs :=
  match a with ANil => ANil | ACons x r => ACons (inst_arg s x) (inst_args s r) end
with inst_arg (s : inst) (x : garg) : garg :=
  match x with
  | GLt l => match s (NLt l) with Some (GLt l') => GLt l' | _ => GLt l end
  | GTy (TyPath QNone (PCons n ANil PNil)) =>
      match s (NId n) with Some g => g | None => GTy (TyPath QNone (PCons n ANil PNil)) end
  | GTy t => GTy (inst_ty s t)
  | GConst e => GConst (inst_expr s e)
  end
with inst_expr (s : inst) (e : expr) : expr :=
  match e with
  | ELit n => ELit n
  | EPath (PCons n ANil PNil) =>
      match s (NId n) with Some (GConst e) => e | _ => EPath (PCons n ANil PNil) end
  | EPath (PCons n a r) =>
      match s (NId n) with
      | Some (GTy t) => ECast (EPath (inst_path s r)) t
      | _ => EPath (PCons n (inst_args s a) (inst_path s r))
      end
  | EPath PNil => EPath PNil
  | EOp a b => EOp (inst_expr s a) (inst_expr s b)
  | ECast e t => ECast (inst_expr s e) (inst_ty s t)
  end.
(** The fixed-size part of an instance: the types of its header fields. The markers that stand for the
    variable-length fields (marker.rs:37, 90) have no bytes in any instance. *)
Definition header_of (d : gdef) (s : inst) : list ty := map (inst_ty s) (header_tys (gd_fields d)).
