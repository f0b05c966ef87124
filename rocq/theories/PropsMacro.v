(** PropsMacro.v - C40, C41, C47: the front end of define_varlen. *)
From Verif Require Export MacroFront.

(** ** C40 *)
(** The kinds named by the attributes of a field, in order. *)
Fixpoint kinds_of (l : list attr) : list field_type :=
  match l with
  | [] => []
  | AVarlen :: r => FtVarlen :: kinds_of r
  | AVarlenArray :: r => FtVarlenArray :: kinds_of r
  | ALayout :: r => FtLength :: kinds_of r
  | AOther _ :: r => kinds_of r
  end.
Definition is_other (a : attr) : bool := match a with AOther _ => true | _ => false end.

Lemma retain_spec l : forall ft err,
  retain (ft, err) l =
    ((match ft with FtNormal => hd FtNormal (kinds_of l) | _ => ft end,
      (err || match ft with FtNormal => Nat.ltb 1 (length (kinds_of l)) | _ => Nat.ltb 0 (length (kinds_of l)) end)%bool),
     filter is_other l).
Proof.
  induction l as [|a l IH]; intros ft err.
  - cbn. destruct ft, err; reflexivity.
  - destruct a; cbn [retain retain_step kinds_of filter is_other].
    + unfold set_type. cbn [fst snd]. destruct ft; cbn [ft_is_normal negb]; rewrite IH; cbn [hd length]; destruct (kinds_of l), err; reflexivity.
    + unfold set_type. cbn [fst snd]. destruct ft; cbn [ft_is_normal negb]; rewrite IH; cbn [hd length]; destruct (kinds_of l), err; reflexivity.
    + unfold set_type. cbn [fst snd]. destruct ft; cbn [ft_is_normal negb]; rewrite IH; cbn [hd length]; destruct (kinds_of l), err; reflexivity.
    + rewrite IH. reflexivity.
Qed.
(** A field is rejected exactly when it has two or more kind attributes; otherwise its kind is that
    of the single kind attribute (Normal if there is none), and the other attributes are kept, in
    order. *)
Theorem C40_one_kind_attribute : forall l,
  (classify l = None <-> (2 <= length (kinds_of l))%nat) /\
  (forall ft kept, classify l = Some (ft, kept) <->
     (kinds_of l = [] /\ ft = FtNormal \/ kinds_of l = [ft]) /\ kept = filter is_other l).
Proof.
  intros l. unfold classify. rewrite retain_spec. cbn [orb].
  destruct (kinds_of l) as [|k [|k' r]] eqn:E; cbn [length Nat.ltb Nat.leb hd].
  - split; [split; [discriminate|lia]|]. intros ft kept. split.
    + intros [= <- <-]. auto.
    + intros [[[_ ->]|H] ->]; [reflexivity|discriminate].
  - split; [split; [discriminate|lia]|]. intros ft kept. split.
    + intros [= <- <-]. auto.
    + intros [[[H _]|[= ->]] ->]; [discriminate|reflexivity].
  - split; [split; [lia|reflexivity]|]. intros ft kept. split; [discriminate|].
    intros [[[H _]|H] _]; discriminate.
Qed.
Example C40_meets :
  classify [AOther 1; AVarlenArray; AOther 2] = Some (FtVarlenArray, [AOther 1; AOther 2]) /\
  classify [AVarlen; AOther 1; ALayout] = None /\ classify [AOther 3] = Some (FtNormal, [AOther 3]).
Proof. auto. Qed.

(** ** C41 *)
(** A place in a program: a crate and the path of a module in it, from the crate root. *)
Definition place : Type := nat * list nat.
(** The region an item is visible in: everywhere, or inside one module (and its descendants). *)
Inductive region := Everywhere | Inside (crate : nat) (m : list nat).
Definition prefix (p q : list nat) : Prop := exists r, q = p ++ r.
Definition visible (r : region) (x : place) : Prop :=
  match r with Everywhere => True | Inside c m => fst x = c /\ prefix m (snd x) end.
(** super of a module; the crate root has none (rustc rejects the program). *)
Definition super (m : list nat) : option (list nat) := match m with [] => None | _ => Some (removelast m) end.
Definition inside (c : nat) (m : option (list nat)) : option region := option_map (Inside c) m.
(** The meaning (Rust reference, "visibility and privacy") of the visibility the user wrote on an
    item in module [m] of crate [c]; None: not a legal program. *)
Definition user_region (c : nat) (m : list nat) (v : visibility) : option region :=
  match v with
  | VPub => Some Everywhere
  | VCrateKw | VRestrCrate => Some (Inside c [])
  | VRestrSuper => inside c (super m)
  | VRestrSelf | VInherited => Some (Inside c m)
  | VIn p => Some (Inside c p)
  end.
(** The meaning of the visibility tokens the macro emits for an item in module [m]. *)
Definition token_region (c : nat) (m : list nat) (tk : vtokens) : option region :=
  match tk with
  | TkPub => Some Everywhere
  | TkPubCrate => Some (Inside c [])
  | TkPubSuper => inside c (super m)
  | TkPubInSuperSuper => match super m with Some m' => inside c (super m') | None => None end
  | TkNone => Some (Inside c m)
  end.

Lemma super_snoc m x : super (m ++ [x]) = Some m.
Proof.
  unfold super. destruct (m ++ [x]) eqn:E; [destruct m; discriminate|]. rewrite <- E. now rewrite removelast_last.
Qed.
(** Every accepted visibility: the outer item has the region the user wrote, and so has the inner item,
    which is declared one module deeper. *)
Theorem C41_same_region : forall c m x v outer inner,
  try_parse v = Some (outer, inner) ->
  token_region c m (to_tokens outer) = user_region c m v /\
  token_region c (m ++ [x]) (to_tokens inner) = user_region c m v.
Proof.
  intros c m x v outer inner H. destruct v; cbn in H; try discriminate; injection H as <- <-; cbn; rewrite ?super_snoc; auto.
Qed.
(** Seen from outside the generated module (whose own visibility is that of the struct), an inner item
    is accessible from exactly the places the user's visibility allows. *)
Theorem C41_accessible : forall c m x v outer inner r,
  try_parse v = Some (outer, inner) -> user_region c m v = Some r ->
  exists rmod ritem, token_region c m (to_tokens outer) = Some rmod /\ token_region c (m ++ [x]) (to_tokens inner) = Some ritem /\
    forall y, (visible rmod y /\ visible ritem y) <-> visible r y.
Proof.
  intros c m x v outer inner r H Hr. destruct (C41_same_region c m x v outer inner H) as [E1 E2]. rewrite Hr in E1, E2.
  exists r, r. split; [exact E1|]. split; [exact E2|]. intros y. tauto.
Qed.
(** Exactly the visibilities restricted to another path are rejected. *)
Theorem C41_rejected : forall v, try_parse v = None <-> exists p, v = VIn p.
Proof. intros v. destruct v; cbn; split; try discriminate; try (intros (q & H); discriminate); eauto. Qed.
Example C41_meets : exists outer inner, try_parse VRestrSuper = Some (outer, inner) /\
  user_region 0 [1; 2]%nat VRestrSuper = Some (Inside 0 [1%nat]) /\ visible (Inside 0 [1%nat]) (0%nat, [1; 5]%nat) /\
  ~ visible (Inside 0 [1%nat]) (0%nat, [2]%nat).
Proof.
  eexists _, _. split; [reflexivity|]. split; [reflexivity|]. split.
  - split; [reflexivity|]. exists [5%nat]. reflexivity.
  - intros [_ (r & H)]. discriminate.
Qed.

(** ** C47 *)
(** The kind of a field. *)
Definition kind (f : fdecl) : option field_type :=
  match kinds_of (fd_attrs f) with [] => Some FtNormal | [k] => Some k | _ => None end.
(** What a legal field is. *)
Definition legal (f : fdecl) : Prop :=
  (exists k, kind f = Some k /\ (k = FtVarlenArray -> fd_array f = true)) /\ (forall p, fd_vis f <> VIn p).
Definition kind_is (k : field_type) (f : fdecl) : bool :=
  match kind f, k with
  | Some FtNormal, FtNormal | Some FtLength, FtLength | Some FtVarlen, FtVarlen | Some FtVarlenArray, FtVarlenArray => true
  | _, _ => false
  end.
Definition is_tail (f : fdecl) : bool := kind_is FtVarlen f || kind_is FtVarlenArray f.
(** The fragments a field must get, by its kind. *)
Definition x_outer (f : fdecl) : simple_vis := match try_parse (fd_vis f) with Some (v, _) => v | None => SPrivate end.
Definition x_inner (f : fdecl) : simple_vis := match try_parse (fd_vis f) with Some (_, v) => v | None => SPrivate end.
Definition x_attrs (f : fdecl) : list attr := filter is_other (fd_attrs f).
Definition pick {A} (f : fdecl) (normal length varlen array : A) : A :=
    match kind f with Some FtLength => length | Some FtVarlen => varlen | Some FtVarlenArray => array | _ => normal end.
Definition x_decl (f : fdecl) : decl_tok := pick f (DTy (fd_ty f)) (DTy (fd_ty f)) (DFieldMarker (fd_ty f)) (DArrayMarker (fd_ty f)).
Definition x_init_ty (f : fdecl) : init_ty_tok := pick f (ITy (fd_ty f)) (ITy (fd_ty f)) (IParam (IInit (fd_name f))) (IParam (IInit (fd_name f))).
Definition x_ref_ty (f : fdecl) : ref_ty_tok := pick f (RtRef (fd_ty f)) (RtRef (fd_ty f)) (RtRef (fd_ty f)) (RtSlice (fd_ty f)).
Definition x_constraint (f : fdecl) : constr_tok := pick f (KInit (fd_ty f)) (KInit (fd_ty f)) (KInit (fd_ty f)) (KArrayInit (fd_ty f)).
Definition x_layout_ty (f : fdecl) : layout_ty_tok := pick f (LtLayout (fd_ty f)) (LtLayout (fd_ty f)) (LtLayout (fd_ty f)) LtUsize.
Definition x_mut_ty (f : fdecl) : mut_ty_tok := pick f (MtMut (fd_ty f)) (MtShared (fd_ty f)) (MtPin (fd_ty f)) (MtSlice (fd_ty f)).
Definition x_init (f : fdecl) : init_tok :=
    pick f (NMove (IName (fd_name f))) (NMove (IName (fd_name f))) (NField (IName (fd_name f)) (IName (fd_name f)) (ILayout (fd_name f))) (NArray (IName (fd_name f)) (IName (fd_name f)) (ILen (fd_name f))).
Definition x_ref (f : fdecl) : ref_tok := pick f (RSelf (IName (fd_name f))) (RSelf (IName (fd_name f))) (RField (IName (fd_name f))) (RArray (IName (fd_name f)) (ILen (fd_name f))).
Definition x_mut (f : fdecl) : mut_tok := pick f (MRef (IName (fd_name f))) (MRef (IName (fd_name f))) (MField (IName (fd_name f))) (MArray (IName (fd_name f)) (ILen (fd_name f))).
Definition x_drop (f : fdecl) : drop_tok :=
    pick f (PInPlace (IName (fd_name f))) (PInPlace (IName (fd_name f))) (PVdrop (fd_ty f) (IName (fd_name f)) (ILayout (fd_name f))) (PArray (fd_ty f) (IName (fd_name f)) (ILen (fd_name f))).
Definition x_needs (f : fdecl) : needs_tok := pick f (QNeedsDrop (fd_ty f)) (QNeedsDrop (fd_ty f)) (QNeedsVdrop (fd_ty f)) (QNeedsDrop (fd_ty f)).
Definition x_layout_ident (f : fdecl) : ident := pick f (IName (fd_name f)) (IName (fd_name f)) (ILayout (fd_name f)) (ILen (fd_name f)).
Definition x_cat (f : fdecl) : cat_tok := pick f (CField (fd_ty f) (IName (fd_name f))) (CField (fd_ty f) (IName (fd_name f))) (CField (fd_ty f) (IName (fd_name f))) (CArray (fd_ty f) (ILen (fd_name f))).
Definition x_align (f : fdecl) : align_tok := pick f (GAlign (fd_ty f)) (GAlign (fd_ty f)) (GAlign (fd_ty f)) (GAlignOf (fd_ty f)).
Definition x_meta (fs : list fdecl) : meta := mkMeta (map x_attrs fs) (map x_outer fs) (map x_inner fs) (map fd_name fs).
Definition x_groups (fs : list fdecl) : groups :=
  let ls := filter (kind_is FtLength) fs in
  let ars := filter (kind_is FtVarlenArray) fs in
  let tl := filter is_tail fs in
  mkG (x_meta ls) (map fd_ty ls)
    (map (fun f => ILen (fd_name f)) ars) (map fd_len ars)
    (x_meta tl) (map (fun f => IInit (fd_name f)) tl) (map x_constraint tl) (map x_layout_ident tl) (map x_layout_ty tl) (map x_cat tl) (map x_cat tl) (map x_align tl)
    (x_meta fs) (map x_decl fs) (map x_init_ty fs) (map x_ref_ty fs) (map x_mut_ty fs) (map x_init fs) (map x_ref fs) (map x_mut fs)
    (map x_drop fs) (map x_needs fs).

Lemma classify_kind f : classify (fd_attrs f) = option_map (fun k => (k, x_attrs f)) (kind f).
Proof.
  destruct (C40_one_kind_attribute (fd_attrs f)) as [H1 H2]. unfold kind, x_attrs.
  destruct (kinds_of (fd_attrs f)) as [|k [|k' r]] eqn:E; cbn [option_map].
  - apply H2. auto.
  - apply H2. auto.
  - apply H1. cbn. lia.
Qed.
Lemma meta_push_x fs f v vi : try_parse (fd_vis f) = Some (v, vi) ->
  meta_push (x_meta fs) (x_attrs f, v, vi, fd_name f) = x_meta (fs ++ [f]).
Proof. intros E. unfold x_meta, meta_push. rewrite !map_app. cbn [me_attrs me_vis me_inner me_ident map]. unfold x_outer, x_inner. now rewrite E. Qed.
Lemma parse_one_x fs f :
  (legal f -> parse_one (x_groups fs) f = Some (x_groups (fs ++ [f]))) /\
  (~ legal f -> forall g, parse_one g f = None).
Proof.
  unfold parse_one. rewrite classify_kind. split.
  - intros [(k & Hk & Ha) Hv]. rewrite Hk. cbn [option_map].
    assert (Ht : exists v vi, try_parse (fd_vis f) = Some (v, vi)).
    { destruct (try_parse (fd_vis f)) as [[v vi]|] eqn:E; [eauto|]. apply C41_rejected in E. destruct E as (p & E). destruct (Hv p E). }
    destruct Ht as (v & vi & Et).
    unfold x_groups. rewrite !filter_app. cbn [filter].
    assert (Hm : forall l, meta_push (x_meta l) (x_attrs f, v, vi, fd_name f) = x_meta (l ++ [f])) by (intros; now apply meta_push_x).
    assert (E1 : x_meta fs = x_meta fs) by reflexivity.
    destruct k; unfold push_normal, push_length, push_varlen, push_varlen_array, one_parse; cbn [fd_vis fd_attrs fd_name fd_ty fd_len fd_array]; rewrite Et;
      try rewrite (Ha eq_refl);
      unfold push_all, push_len_part, push_var_part, push_expr_part; cbn [g_len_meta g_len_tys g_lenexpr_ident g_lenexpr g_var_meta g_init_params g_constraints g_layout_idents g_layout_ty g_cat_cautious g_cat_fast g_align g_all_meta g_decl_ty g_init_ty g_ref_ty g_mut_ty g_init_field g_ref_field g_mut_field g_drop_field g_needs];
      rewrite ?Hm; unfold is_tail, kind_is; rewrite Hk; cbn [orb]; rewrite ?app_nil_r; rewrite ?map_app; cbn [map];
      unfold x_decl, x_init_ty, x_ref_ty, x_constraint, x_layout_ty, x_mut_ty, x_init, x_ref, x_mut, x_drop, x_needs, x_layout_ident, x_cat, x_align, pick; rewrite Hk; reflexivity.
  - intros Hn g. destruct (kind f) as [k|] eqn:Hk; cbn [option_map]; [|reflexivity].
    destruct (try_parse (fd_vis f)) as [[v vi]|] eqn:Et.
    + destruct k; unfold push_normal, push_length, push_varlen, push_varlen_array, one_parse; cbn [fd_vis fd_array]; rewrite Et;
        try (exfalso; apply Hn; split; [eexists; split; [exact Hk|discriminate]|intros p Ep; rewrite Ep in Et; discriminate]).
      destruct (fd_array f) eqn:Ea; [|reflexivity]. exfalso. apply Hn. split; [exists FtVarlenArray; auto|]. intros p Ep. rewrite Ep in Et. discriminate.
    + destruct k; unfold push_normal, push_length, push_varlen, push_varlen_array, one_parse; cbn [fd_vis]; rewrite Et; reflexivity.
Qed.
Lemma legal_dec f : legal f \/ ~ legal f.
Proof.
  destruct (kind f) as [k|] eqn:Ek.
  2:{ right. intros [(k & Hk & _) _]. congruence. }
  destruct (try_parse (fd_vis f)) as [p|] eqn:Et.
  2:{ right. intros [_ H]. apply C41_rejected in Et. destruct Et as (p & E). destruct (H p E). }
  assert (Hv : forall q, fd_vis f <> VIn q) by (intros q E; rewrite E in Et; discriminate).
  destruct (fd_array f) eqn:Ea.
  - left. split; [exists k; auto|exact Hv].
  - destruct k; try (left; split; [eexists; split; [exact Ek|discriminate]|exact Hv]).
    right. intros [(k & Hk & H) _]. rewrite Ek in Hk. injection Hk as <-. specialize (H eq_refl). congruence.
Qed.
Lemma parse_from_x fs : forall done,
  (Forall legal fs -> parse_from (x_groups done) fs = Some (x_groups (done ++ fs))) /\
  (~ Forall legal fs -> parse_from (x_groups done) fs = None).
Proof.
  induction fs as [|f fs IH]; intros done.
  - rewrite app_nil_r. split; [reflexivity|]. intros H. destruct (H (Forall_nil _)).
  - cbn [parse_from]. destruct (legal_dec f) as [Hf|Hf].
    + rewrite (proj1 (parse_one_x done f) Hf). destruct (IH (done ++ [f])) as [I1 I2]. rewrite <- app_assoc in I1. split.
      * intros H. inversion H; subst. auto.
      * intros H. apply I2. intros Hr. apply H. constructor; auto.
    + rewrite (proj2 (parse_one_x done f) Hf). split; [|reflexivity]. intros H. inversion H; contradiction.
Qed.
(** A struct is accepted exactly when every field is legal (at most one kind attribute, a supported
    visibility, an array type under varlen_array), and then every list of fragments contains, in
    declaration order, exactly the fragments of the fields of the right kind: the controllers are the
    controls_layout fields, the tail is the varlen and varlen_array fields, the length expressions are
    those of the varlen_array fields, and everything emitted for one field refers to that field and no
    other. *)
Theorem C47_fields_grouped : forall fs,
  (Forall legal fs -> parse_fields fs = Some (x_groups fs)) /\ (~ Forall legal fs -> parse_fields fs = None).
Proof. intros fs. apply (parse_from_x fs []). Qed.
(** A layout-controlling field is never exposed mutably. *)
Theorem C47_controllers_shared : forall fs g k f,
  parse_fields fs = Some g -> nth_error fs k = Some f -> kind f = Some FtLength -> nth_error (g_mut_ty g) k = Some (MtShared (fd_ty f)).
Proof.
  intros fs g k f H Hk Hf. destruct (C47_fields_grouped fs) as [H1 H2].
  assert (g = x_groups fs) as ->.
  { assert (HL : Forall legal fs \/ ~ Forall legal fs).
    { clear. induction fs as [|f fs IH]; [left; constructor|]. destruct (legal_dec f) as [Hf|Hf]; [|right; intros X; inversion X; contradiction].
      destruct IH as [IH|IH]; [left; constructor; auto|right; intros X; inversion X; contradiction]. }
    destruct HL as [HL|HL]; [rewrite (H1 HL) in H|rewrite (H2 HL) in H]; congruence. }
  cbn [x_groups g_mut_ty]. rewrite (map_nth_error x_mut_ty _ _ Hk). unfold x_mut_ty, pick. now rewrite Hf.
Qed.
Definition fs_ex : list fdecl :=
  [mkFd 0 [ALayout] VPub false 10 0; mkFd 1 [AOther 5] VInherited false 11 0;
   mkFd 2 [AVarlen; AOther 6] VRestrSuper false 12 0; mkFd 3 [AVarlenArray] VPub true 13 20].
Example C47_meets : Forall legal fs_ex /\ option_map g_drop_field (parse_fields fs_ex) =
  Some [PInPlace (IName 0); PInPlace (IName 1); PVdrop 12 (IName 2) (ILayout 2); PArray 13 (IName 3) (ILen 3)] /\
  option_map g_layout_idents (parse_fields fs_ex) = Some [ILayout 2; ILen 3].
Proof.
  split; [|split; reflexivity].
  repeat constructor; try (eexists; split; [reflexivity|]; auto; discriminate); intros p; discriminate.
Qed.
