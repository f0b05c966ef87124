(** PropsMacroGen.v - C53, C54: generic structs in define_varlen. *)
From Verif Require Export GenericsSpec.

Scheme ty_mind := Induction for ty Sort Prop
  with tys_mind := Induction for tys Sort Prop
  with qself_mind := Induction for qself Sort Prop
  with path_mind := Induction for path Sort Prop
  with gargs_mind := Induction for gargs Sort Prop
  with garg_mind := Induction for garg Sort Prop
  with expr_mind := Induction for expr Sort Prop.
Combined Scheme syn_ind from ty_mind, tys_mind, qself_mind, path_mind, gargs_mind, garg_mind, expr_mind.

(** The qself alone mentions what its type mentions. *)
Definition says_q (q : qself) : list gname := match q with QNone => [] | QSelf t => says_ty t end.
Definition plain_q (ps : list gname) (q : qself) : Prop := match q with QNone => True | QSelf t => plain_ty ps t end.

(** Everything the visitor records is mentioned. *)
Lemma visit_says :
  (forall t, incl (visit_ty t) (says_ty t)) /\ (forall ts, incl (visit_tys ts) (says_tys ts)) /\
  (forall q, incl (visit_q q) (says_q q)) /\ (forall p, incl (visit_path p) (says_path p)) /\
  (forall a, incl (visit_args a) (says_args a)) /\ (forall x, incl (visit_arg x) (says_arg x)) /\
  (forall e, incl (visit_expr e) (says_expr e)).
Proof.
  apply syn_ind.
  - intros q IHq p IHp. destruct q as [|t]; cbn [visit_ty says_ty visit_q says_q] in *.
    + assert (X : (exists n, p = PCons n ANil PNil) \/ visit_ty (TyPath QNone p) = visit_path p).
      { destruct p as [|n [|x r] [|m b p]]; auto. left. eauto. }
      intros g Hg. apply in_app_iff. destruct X as [[n ->]|E]; [left; exact Hg|right]. apply IHp. rewrite <- E. exact Hg.
    + intros g Hg. apply in_app_iff in Hg. apply in_app_iff. destruct Hg; [left; now apply IHq|right; now apply IHp].
  - intros [l|] t IH; cbn; intros g Hg; [destruct Hg as [<-|Hg]; [left; reflexivity|right]|]; now apply IH.
  - intros t IH e IHe g Hg. cbn in *. apply in_app_iff in Hg. apply in_app_iff. destruct Hg; [left; now apply IH|right; now apply IHe].
  - intros t IH. exact IH.
  - intros ts IH. exact IH.
  - intros g [].
  - intros t IH ts IHs g Hg. cbn in *. apply in_app_iff in Hg. apply in_app_iff. destruct Hg; [left; now apply IH|right; now apply IHs].
  - intros g [].
  - intros t IH. exact IH.
  - intros g [].
  - intros n a IH p IHp g Hg. cbn in *. apply in_app_iff in Hg. apply in_app_iff. destruct Hg; [left; now apply IH|right; now apply IHp].
  - intros g [].
  - intros a IH r IHr g Hg. cbn in *. apply in_app_iff in Hg. apply in_app_iff. destruct Hg; [left; now apply IH|right; now apply IHr].
  - intros l g Hg. exact Hg.
  - intros t IH. exact IH.
  - intros e IH. exact IH.
  - intros n g [].
  - intros p IH g Hg. cbn in *. apply in_app_iff. right. now apply IH.
  - intros e1 I1 e2 I2 g Hg. cbn in *. apply in_app_iff in Hg. apply in_app_iff. destruct Hg; [left; now apply I1|right; now apply I2].
  - intros e I1 t I2 g Hg. cbn in *. apply in_app_iff in Hg. apply in_app_iff. destruct Hg; [left; now apply I1|right; now apply I2].
Qed.

(** In a plain type the visitor records every parameter that is mentioned. *)
Lemma visit_plain ps :
  (forall t, plain_ty ps t -> forall g, In g (says_ty t) -> In g ps -> In g (visit_ty t)) /\
  (forall ts, plain_tys ps ts -> forall g, In g (says_tys ts) -> In g ps -> In g (visit_tys ts)) /\
  (forall q, plain_q ps q -> forall g, In g (says_q q) -> In g ps -> In g (visit_q q)) /\
  (forall p, plain_path ps p -> forall g, In g (says_path p) -> In g ps -> In g (visit_path p)) /\
  (forall a, plain_args ps a -> forall g, In g (says_args a) -> In g ps -> In g (visit_args a)) /\
  (forall x, plain_arg ps x -> forall g, In g (says_arg x) -> In g ps -> In g (visit_arg x)) /\
  (forall e, plain_expr ps e -> forall g, In g (says_expr e) -> In g ps -> In g (visit_expr e)).
Proof.
  apply syn_ind.
  - intros q IHq p IHp Hp g Hg Hin. destruct q as [|t]; cbn [visit_ty says_ty visit_q says_q plain_ty plain_q] in *.
    + destruct p as [|n a r]; [destruct Hg|]. apply in_app_iff in Hg.
      assert (X : (a = ANil /\ r = PNil) \/ (visit_ty (TyPath QNone (PCons n a r)) = visit_path (PCons n a r) /\
                  ~ In (NId n) ps /\ plain_path ps (PCons n a r))).
      { destruct a as [|x b], r as [|m c r]; auto; right; cbn [plain_ty plain_path] in *; cbn [visit_ty visit_q app]; tauto. }
      destruct X as [[-> ->]|(Ev & Hn & Hpp)].
      * cbn in Hg |- *. tauto.
      * change (In g (visit_ty (TyPath QNone (PCons n a r)))). rewrite Ev. destruct Hg as [[<-|[]]|Hg]; [contradiction|]. apply IHp; auto.
    + destruct Hp as [H1 H2]. apply in_app_iff in Hg. apply in_app_iff. destruct Hg; [left; apply IHq|right; apply IHp]; auto.
  - intros [l|] t IH Hp g Hg Hin; cbn in *; [destruct Hg as [<-|Hg]; [left; reflexivity|right]|]; now apply IH.
  - intros t IH e IHe [H1 H2] g Hg Hin. cbn in *. apply in_app_iff in Hg. apply in_app_iff. destruct Hg; [left; now apply IH|right; now apply IHe].
  - intros t IH. exact IH.
  - intros ts IH. exact IH.
  - intros _ g [].
  - intros t IH ts IHs [H1 H2] g Hg Hin. cbn in *. apply in_app_iff in Hg. apply in_app_iff. destruct Hg; [left; now apply IH|right; now apply IHs].
  - intros _ g [].
  - intros t IH. exact IH.
  - intros _ g [].
  - intros n a IH p IHp [H1 H2] g Hg Hin. cbn in *. apply in_app_iff in Hg. apply in_app_iff. destruct Hg; [left; now apply IH|right; now apply IHp].
  - intros _ g [].
  - intros a IH r IHr [H1 H2] g Hg Hin. cbn in *. apply in_app_iff in Hg. apply in_app_iff. destruct Hg; [left; now apply IH|right; now apply IHr].
  - intros l _ g Hg _. exact Hg.
  - intros t IH. exact IH.
  - intros e IH. exact IH.
  - intros n _ g [].
  - intros p IH [H1 H2] g Hg Hin. cbn in *. apply in_app_iff in Hg. destruct Hg as [Hg|Hg]; [destruct (H1 g Hg Hin)|]. now apply IH.
  - intros e1 I1 e2 I2 [H1 H2] g Hg Hin. cbn in *. apply in_app_iff in Hg. apply in_app_iff. destruct Hg; [left; now apply I1|right; now apply I2].
  - intros e I1 t I2 [H1 H2] g Hg Hin. cbn in *. apply in_app_iff in Hg. apply in_app_iff. destruct Hg; [left; now apply I1|right; now apply I2].
Qed.

(** An instance does not change a type that mentions none of the replaced names. *)
Lemma inst_closed s :
  (forall t, (forall g, In g (says_ty t) -> s g = None) -> inst_ty s t = t) /\
  (forall ts, (forall g, In g (says_tys ts) -> s g = None) -> inst_tys s ts = ts) /\
  (forall q, (forall g, In g (says_q q) -> s g = None) -> inst_q s q = q) /\
  (forall p, (forall g, In g (says_path p) -> s g = None) -> inst_path s p = p) /\
  (forall a, (forall g, In g (says_args a) -> s g = None) -> inst_args s a = a) /\
  (forall x, (forall g, In g (says_arg x) -> s g = None) -> inst_arg s x = x) /\
  (forall e, (forall g, In g (says_expr e) -> s g = None) -> inst_expr s e = e).
Proof.
  assert (Ha : forall (a b : list gname) (P : gname -> Prop), (forall g, In g (a ++ b) -> P g) -> (forall g, In g a -> P g) /\ (forall g, In g b -> P g)).
  { intros a b P H. split; intros g Hg; apply H, in_app_iff; auto. }
  apply syn_ind.
  - intros q IHq p IHp H. destruct q as [|t]; cbn [says_ty] in H; apply Ha in H; destruct H as [H1 H2].
    + destruct p as [|n a r]; [reflexivity|]. pose proof (H1 (NId n) (or_introl eq_refl)) as Hn. specialize (IHp H2). cbn [inst_path] in IHp.
      destruct a as [|x b], r as [|m c r]; cbn [inst_ty]; rewrite Hn; [reflexivity| | |]; now rewrite IHp.
    + cbn [says_q inst_q] in IHq. cbn [inst_ty inst_q]. rewrite IHp by exact H2. specialize (IHq H1). injection IHq as ->. reflexivity.
  - intros [l|] t IH H; cbn in *; [|now rewrite IH]. rewrite (H (NLt l) (or_introl eq_refl)). rewrite IH; auto.
  - intros t IH e IHe H. cbn in *. apply Ha in H. destruct H as [H1 H2]. now rewrite IH, IHe.
  - intros t IH H. cbn in *. now rewrite IH.
  - intros ts IH H. cbn in *. now rewrite IH.
  - reflexivity.
  - intros t IH ts IHs H. cbn in *. apply Ha in H. destruct H as [H1 H2]. now rewrite IH, IHs.
  - reflexivity.
  - intros t IH H. cbn in *. now rewrite IH.
  - reflexivity.
  - intros n a IH p IHp H. cbn in *. apply Ha in H. destruct H as [H1 H2]. now rewrite IH, IHp.
  - reflexivity.
  - intros a IH r IHr H. cbn in *. apply Ha in H. destruct H as [H1 H2]. now rewrite IH, IHr.
  - intros l H. cbn in *. now rewrite (H (NLt l) (or_introl eq_refl)).
  - intros t IH H. cbn [says_arg] in H. specialize (IH H).
    assert (X : inst_arg s (GTy t) = GTy (inst_ty s t) \/ exists n, t = TyPath QNone (PCons n ANil PNil)).
    { destruct t as [q p| | | |]; auto. destruct q; auto. destruct p as [|n a r]; auto. destruct a; auto. destruct r; auto. right. eauto. }
    destruct X as [->|[n ->]]; [now rewrite IH|]. cbn [inst_arg]. cbn in H. now rewrite (H (NId n) (or_introl eq_refl)).
  - intros e IH H. cbn in *. now rewrite IH.
  - reflexivity.
  - intros p IH H. cbn [says_expr] in H. apply Ha in H. destruct H as [H1 H2]. destruct p as [|n a r]; [reflexivity|].
    pose proof (H1 (NId n) (or_introl eq_refl)) as Hn. specialize (IH H2). cbn [inst_path] in IH.
    destruct a as [|x b], r as [|m c r]; cbn [inst_expr]; rewrite Hn; [reflexivity| | |]; now rewrite IH.
  - intros e1 I1 e2 I2 H. cbn in *. apply Ha in H. destruct H as [H1 H2]. now rewrite I1, I2.
  - intros e I1 t I2 H. cbn in *. apply Ha in H. destruct H as [H1 H2]. now rewrite I1, I2.
Qed.

(** The visitor records exactly the names that stand on their own. *)
Lemma visit_occ g :
  (forall t, In g (visit_ty t) <-> occ_ty g t) /\ (forall ts, In g (visit_tys ts) <-> occ_tys g ts) /\
  (forall q, In g (visit_q q) <-> exists t, q = QSelf t /\ occ_ty g t) /\ (forall p, In g (visit_path p) <-> occ_path g p) /\
  (forall a, In g (visit_args a) <-> occ_args g a) /\ (forall x, In g (visit_arg x) <-> occ_args g (ACons x ANil)) /\
  (forall e, In g (visit_expr e) <-> occ_expr g e).
Proof.
  assert (Hnil : ~ occ_args g ANil) by (intros H; inversion H).
  apply syn_ind.
  - intros q IHq p IHp.
    assert (X : In g (visit_ty (TyPath q p)) <-> (exists n, q = QNone /\ p = PCons n ANil PNil /\ g = NId n) \/ In g (visit_q q) \/ In g (visit_path p)).
    { destruct q as [|t]; [|cbn [visit_ty]; rewrite in_app_iff; split; [auto|intros [(n & H & _)|H]; [discriminate|exact H]]].
      assert (S : (exists n, p = PCons n ANil PNil) \/ (visit_ty (TyPath QNone p) = visit_path p /\ forall n, p <> PCons n ANil PNil)).
      { destruct p as [|n [|x r] [|m b p]]; [right|left|right|right|right]; try (split; [reflexivity|discriminate]). eauto. }
      destruct S as [[n ->]|[E N]]; [|rewrite E; cbn [visit_q In]; split; [auto|intros [(n & _ & H & _)|[[]|H]]; [destruct (N n H)|exact H]]].
      cbn. split; [intros [<-|[]]; left; eauto|intros [(m & _ & H & ->)|[[]|[]]]]. injection H as <-. auto. }
    rewrite X, IHq, IHp. split.
    + intros [(n & -> & -> & ->)|[(t & -> & H)|H]]; [now apply O_name|now apply O_qself|now apply O_path].
    + intros H. inversion H; subst; [left; eauto|right; left; eauto|right; right; assumption].
  - intros [l|] t IH; cbn [visit_ty]; [cbn [In]|]; rewrite IH; split.
    + intros [<-|H]; [now apply O_lt|now apply O_ref].
    + intros H. inversion H; subst; auto.
    + intros H. now apply O_ref.
    + intros H. inversion H; subst; auto.
  - intros t IH e IHe. cbn [visit_ty]. rewrite in_app_iff, IH, IHe. split; [intros [H|H]; [now apply O_elem|now apply O_len]|intros H; inversion H; subst; auto].
  - intros t IH. cbn [visit_ty]. rewrite IH. split; [apply O_slice|intros H; inversion H; auto].
  - intros ts IH. cbn [visit_ty]. rewrite IH. split; [apply O_tup|intros H; inversion H; auto].
  - split; [intros []|intros H; inversion H].
  - intros t IH ts IHs. cbn [visit_tys]. rewrite in_app_iff, IH, IHs. split; [intros [H|H]; [now apply O_first|now apply O_rest]|intros H; inversion H; subst; auto].
  - split; [intros []|intros (t & H & _); discriminate].
  - intros t IH. cbn [visit_q]. rewrite IH. split; [eauto|intros (u & H & Ho)]. injection H as <-. exact Ho.
  - split; [intros []|intros H; inversion H].
  - intros n a IH p IHp. cbn [visit_path]. rewrite in_app_iff, IH, IHp. split; [intros [H|H]; [now apply O_args|now apply O_next]|intros H; inversion H; subst; auto].
  - split; [intros []|intros H; inversion H].
  - intros a IH r IHr. cbn [visit_args]. rewrite in_app_iff, IH, IHr. split.
    + intros [H|H]; [|now apply O_more]. inversion H; subst; [now apply O_arg_lt|now apply O_arg_ty|now apply O_arg_const|contradiction].
    + intros H. inversion H; subst; [left; now apply O_arg_lt|left; now apply O_arg_ty|left; now apply O_arg_const|auto].
  - intros l. cbn. split; [intros [<-|[]]; now apply O_arg_lt|intros H; inversion H; subst; auto; contradiction].
  - intros t IH. cbn [visit_arg]. rewrite IH. split; [apply O_arg_ty|intros H; inversion H; subst; auto; contradiction].
  - intros e IH. cbn [visit_arg]. rewrite IH. split; [apply O_arg_const|intros H; inversion H; subst; auto; contradiction].
  - intros n. split; [intros []|intros H; inversion H].
  - intros p IH. cbn [visit_expr]. rewrite IH. split; [apply O_epath|intros H; inversion H; auto].
  - intros a IH b IHb. cbn [visit_expr]. rewrite in_app_iff, IH, IHb. split; [intros [H|H]; [now apply O_left|now apply O_right]|intros H; inversion H; subst; auto].
  - intros e IH t IHt. cbn [visit_expr]. rewrite in_app_iff, IH, IHt. split; [intros [H|H]; [now apply O_cast|now apply O_cast_ty]|intros H; inversion H; subst; auto].
Qed.
Lemma refs_found d g : In g (layout_refs (gd_fields d)) <-> found d g.
Proof.
  unfold layout_refs, found. rewrite in_flat_map. split.
  - intros (f & Hf & Hg). destruct f as [t|t|t|t e]; try contradiction. exists t. split; [exact Hf|now apply (proj1 (visit_occ g))].
  - intros (t & Hf & Hg). exists (GfVarlen t). split; [exact Hf|now apply (proj1 (visit_occ g))].
Qed.
Lemma header_spec fs : header_types fs (header_tys fs).
Proof. induction fs as [|[t|t|t|t e] fs IH]; cbn; constructor; exact IH. Qed.
Lemma header_in d g : some_mention (header_tys (gd_fields d)) g <-> in_header d g.
Proof.
  unfold some_mention, in_header, header_tys. split.
  - intros (t & Ht & Hg). apply in_flat_map in Ht. destruct Ht as (f & Hf & Ht). exists t. split; [|exact Hg].
    destruct f; try contradiction; destruct Ht as [<-|[]]; auto.
  - intros (t & [H|H] & Hg); exists t; (split; [|exact Hg]); apply in_flat_map; eexists; (split; [exact H|left; reflexivity]).
Qed.
Lemma length_in d g : (exists e, In e (len_exprs (gd_fields d)) /\ In g (says_expr e)) <-> in_length d g.
Proof.
  unfold in_length, len_exprs. split.
  - intros (e & He & Hg). apply in_flat_map in He. destruct He as (f & Hf & He). destruct f as [| | |t e']; try contradiction. destruct He as [->|[]]. eauto.
  - intros (t & e & Hf & Hg). exists e. split; [|exact Hg]. apply in_flat_map. exists (GfArray t e). split; [exact Hf|left; reflexivity].
Qed.
Lemma varlen_in d g : some_mention (varlen_tys (gd_fields d)) g <-> in_varlen d g.
Proof.
  unfold some_mention, in_varlen, varlen_tys. split.
  - intros (t & Ht & Hg). apply in_flat_map in Ht. destruct Ht as (f & Hf & Ht). destruct f as [| |t'|]; try contradiction. destruct Ht as [->|[]]. eauto.
  - intros (t & Hf & Hg). exists t. split; [|exact Hg]. apply in_flat_map. exists (GfVarlen t). split; [exact Hf|left; reflexivity].
Qed.

(** ** C53 *)
(** VBox::new, Seq::push etc. compute the layout of a new object from size_of of the struct with its
    default generics, and every later access from size_of::<Self>(). For every definition whose
    expansion rustc resolves, all instances have the same header field types and the same length
    expressions, so whatever size rustc gives a header, the two agree. *)
Theorem C53_generic_header : forall d dflt self,
  resolves d -> instance_of d dflt -> instance_of d self ->
  header_of d self = header_of d dflt /\
  (* the header consists of the plain and controls_layout fields, with the types written in the definition *)
  header_types (gd_fields d) (header_of d self) /\
  (forall t e, In (GfArray t e) (gd_fields d) -> inst_expr self e = e /\ inst_expr dflt e = e) /\
  forall (size_of : list ty -> N), size_of (header_of d self) = size_of (header_of d dflt).
Proof.
  intros d dflt self [Hr _] H1 H2. unfold items in Hr.
  assert (Hlen : item_resolves d (item_lengths d)) by (inversion Hr as [|? ? _ Hr2]; inversion Hr2; assumption).
  assert (Hini : item_resolves d (item_init d)) by (inversion Hr as [|? ? _ Hr2]; inversion Hr2 as [|? ? _ Hr3]; inversion Hr3; assumption).
  assert (Hno : forall s, instance_of d s -> forall g, (In g (param_names d) -> False) -> s g = None).
  { intros s Hs g Hg. destruct (s g) eqn:E; [|reflexivity]. exfalso. apply Hg, Hs. congruence. }
  assert (Hh : forall s, instance_of d s -> header_of d s = header_tys (gd_fields d)).
  { intros s Hs. unfold header_of. rewrite <- map_id. apply map_ext_in. intros t Ht. apply (proj1 (inst_closed s)).
    intros g Hg. apply (Hno s Hs). intros Hp. destruct Hini as [X _]. apply (X g); [|exact Hp]. unfold says_item. apply in_app_iff. left.
    apply in_flat_map. exists t. auto. }
  assert (He : forall s, instance_of d s -> forall e, In e (len_exprs (gd_fields d)) -> inst_expr s e = e).
  { intros s Hs e Ht. apply (proj2 (proj2 (proj2 (proj2 (proj2 (proj2 (inst_closed s))))))).
    intros g Hg. apply (Hno s Hs). intros Hp. destruct Hlen as [X _]. apply (X g); [|exact Hp]. unfold says_item. apply in_app_iff. right.
    apply in_flat_map. exists e. auto. }
  rewrite (Hh dflt H1), (Hh self H2). split; [reflexivity|]. split; [apply header_spec|]. split; [|auto]. intros t e Hin.
  split; [apply (He self H2)|apply (He dflt H1)]; unfold len_exprs; apply in_flat_map; exists (GfArray t e); (split; [exact Hin|left; reflexivity]).
Qed.

(** ** C54 *)
(** The names a list of types mentions. *)
Notation mentioned := some_mention.
Lemma says_items ts es g : In g (flat_map says_ty ts ++ flat_map says_expr es) <-> mentioned ts g \/ exists e, In e es /\ In g (says_expr e).
Proof. rewrite in_app_iff, !in_flat_map. reflexivity. Qed.
Lemma gname_eqb_eq a b : gname_eqb a b = true <-> a = b.
Proof. destruct a, b; cbn; rewrite ?PeanoNat.Nat.eqb_eq; split; congruence. Qed.
Lemma kept_names d g : In g (names (parse_generics (gd_params d) (layout_filter d))) <-> In g (param_names d) /\ In g (layout_refs (gd_fields d)).
Proof.
  unfold names, parse_generics, layout_filter, param_names. cbn [snd]. rewrite !in_map_iff. split.
  - intros (p & <- & Hp). apply filter_In in Hp. destruct Hp as [Hp Hk]. split; [eauto|]. cbn [kept] in Hk. apply existsb_exists in Hk.
    destruct Hk as (x & Hx & E). apply gname_eqb_eq in E. now rewrite E.
  - intros [(p & <- & Hp) Hx]. exists p. split; [reflexivity|]. apply filter_In. split; [exact Hp|]. cbn [kept]. apply existsb_exists.
    exists (gp_name p). split; [exact Hx|]. now apply gname_eqb_eq.
Qed.
Lemma filter_all {A} (l : list A) : List.filter (fun _ => true) l = l.
Proof. induction l; cbn; congruence. Qed.
Lemma all_names d : names (parse_generics (gd_params d) None) = param_names d.
Proof. unfold names, parse_generics, param_names. cbn [snd kept]. now rewrite filter_all. Qed.
Lemma NoDup_filter_map {A B} (f : A -> B) (P : A -> bool) l : NoDup (map f l) -> NoDup (map f (List.filter P l)).
Proof.
  induction l as [|x l IH]; cbn [map List.filter]; [auto|]. intros H. inversion H as [|? ? H1 H2]; subst.
  destruct (P x); [|auto]. cbn [map]. constructor; [|auto]. intros Hin. apply H1. apply in_map_iff in Hin. destruct Hin as (y & E & Hy).
  apply filter_In in Hy. apply in_map_iff. exists y. tauto.
Qed.

(** The three parameter lists of a generated item: the definition keeps exactly the parameters the
    filter names, in order and unchanged; the impl header has the same parameters with the same bounds
    and no defaults (Rust rejects defaults there); the type is applied to the same names. *)
Theorem C54_params_split : forall ps flt sd im ap, parse_generics ps flt = (sd, im, ap) ->
  (forall p, In p sd <-> In p ps /\ match flt with None => True | Some l => In (gp_name p) l end) /\
  (exists keep : list bool, length keep = length ps /\ sd = map fst (List.filter snd (combine ps keep))) /\
  ap = map gp_name sd /\ map gp_name im = ap /\ map gp_bounds im = map gp_bounds sd /\
  Forall (fun p => gp_default p = false) im.
Proof.
  intros ps flt sd im ap [= <- <- <-]. split; [|split; [|split; [|split; [|split]]]].
  - intros p. rewrite filter_In. unfold kept. destruct flt as [l|]; [|tauto]. rewrite existsb_exists. split.
    + intros (H & x & Hx & E). apply gname_eqb_eq in E. subst x. auto.
    + intros (H & Hl). split; [exact H|]. exists (gp_name p). split; [exact Hl|now apply gname_eqb_eq].
  - exists (map (kept flt) ps). split; [apply map_length|]. induction ps as [|p ps IH]; [reflexivity|]. cbn [map combine List.filter snd]. destruct (kept flt p); cbn [map fst]; now rewrite IH.
  - reflexivity.
  - rewrite map_map. reflexivity.
  - rewrite map_map. reflexivity.
  - rewrite Forall_forall. intros p Hp. apply in_map_iff in Hp. destruct Hp as (q & <- & _). reflexivity.
Qed.
(** The parameters the generated layout type declares are exactly those that stand on their own in the
    type of some varlen field. *)
Theorem C54_layout_generics : forall d g,
  In g (it_decl (item_layout d)) <-> In g (param_names d) /\ found d g.
Proof. intros d g. rewrite <- refs_found. apply kept_names. Qed.
Lemma resolves_exact : forall d,
  resolves d <->
  NoDup (param_names d) /\ ~ In lt_a (param_names d) /\
  (forall p, In p (gd_params d) -> (exists n, gp_name p = NId n) -> gp_default p = true) /\
  (forall g, In g (param_names d) -> ~ mentioned (header_tys (gd_fields d)) g) /\
  (forall g e, In g (param_names d) -> In e (len_exprs (gd_fields d)) -> ~ In g (says_expr e)) /\
  (forall g, In g (param_names d) ->
     mentioned (varlen_tys (gd_fields d)) g \/ mentioned (gd_where d) g \/
     (exists p, In p (gd_params d) /\ In (gp_name p) (layout_refs (gd_fields d)) /\ mentioned (gp_bounds p) g) ->
     In g (layout_refs (gd_fields d))).
Proof.
  intros d.
  assert (Hdef : defaults_given d = true <-> forall p, In p (gd_params d) -> (exists n, gp_name p = NId n) -> gp_default p = true).
  { unfold defaults_given. rewrite forallb_forall. split; intros H p Hp; specialize (H p Hp).
    - intros [n E]. rewrite E in H. exact H.
    - destruct (gp_name p); [apply H; eauto|reflexivity]. }
  assert (Hsub : forall g, mentioned (length_tys (gd_fields d)) g -> mentioned (header_tys (gd_fields d)) g).
  { intros g (t & Ht & Hg). exists t. split; [|exact Hg]. unfold length_tys, header_tys in *. apply in_flat_map in Ht. apply in_flat_map.
    destruct Ht as (f & Hf & Ht). exists f. split; [exact Hf|]. destruct f; auto; contradiction. }
  assert (Hmap : forall a b g, mentioned (a ++ b) g <-> mentioned a g \/ mentioned b g).
  { intros a b g. unfold mentioned. split.
    - intros (t & Ht & Hg). apply in_app_iff in Ht. destruct Ht; [left|right]; eauto.
    - intros [(t & Ht & Hg)|(t & Ht & Hg)]; exists t; (split; [apply in_app_iff; auto|exact Hg]). }
  unfold resolves, items. rewrite Hdef. unfold item_resolves.
  split.
  - intros [H HD]. inversion H as [|? ? [L1 L2] H2]; subst. inversion H2 as [|? ? [N1 N2] H3]; subst. inversion H3 as [|? ? [I1 I2] H4]; subst.
    inversion H4 as [|? ? [R1 R2] H5]; subst. clear H H2 H3 H4 H5. unfold item_refs in R2. cbn [it_decl] in R2. rewrite all_names in R2.
    inversion R2 as [|? ? Ra Rb]; subst. split; [exact Rb|]. split; [exact Ra|]. split; [exact HD|]. split; [|split].
    + intros g Hp Hm. apply (I1 g); [|exact Hp]. unfold says_item. apply says_items. left. exact Hm.
    + intros g e Hp He Hg. apply (N1 g); [|exact Hp]. unfold says_item. apply says_items. right. eauto.
    + intros g Hp Hm. apply (kept_names d g). apply (L1 g); [|exact Hp]. unfold says_item. apply says_items. left.
      unfold item_layout. cbn [it_types]. rewrite !Hmap. destruct Hm as [Hm|[Hm|(p & Hp1 & Hp2 & (t & Ht & Hg))]]; auto.
      left. exists t. split; [|exact Hg]. unfold bounds, parse_generics. cbn [fst]. apply in_flat_map. exists p. split; [|exact Ht].
      apply filter_In. split; [exact Hp1|]. cbn [layout_filter kept]. apply existsb_exists. exists (gp_name p). split; [exact Hp2|now apply gname_eqb_eq].
  - intros (HN & Ha & HD & Hh & He & Hl). split; [|exact HD].
    repeat apply Forall_cons; try apply Forall_nil; (split; [|]).
    + intros g Hg Hp. unfold says_item in Hg. apply says_items in Hg. destruct Hg as [Hg|(e & [] & _)]. unfold item_layout in *. cbn [it_types it_decl] in *.
      apply kept_names. split; [exact Hp|]. apply Hl; [exact Hp|]. rewrite !Hmap in Hg. destruct Hg as [(t & Ht & Hg)|[Hg|Hg]]; auto.
      right. right. unfold bounds, parse_generics in Ht. cbn [fst] in Ht. apply in_flat_map in Ht. destruct Ht as (p & Hp1 & Ht). apply filter_In in Hp1.
      destruct Hp1 as [Hp1 Hk]. exists p. split; [exact Hp1|]. split; [|exists t; auto]. cbn [layout_filter kept] in Hk. apply existsb_exists in Hk.
      destruct Hk as (x & Hx & E). apply gname_eqb_eq in E. now rewrite E.
    + unfold item_layout, names, parse_generics. cbn [it_decl snd]. now apply NoDup_filter_map.
    + intros g Hg Hp. unfold says_item in Hg. apply says_items in Hg. destruct Hg as [Hg|(e & He1 & Hg)]; [destruct (Hh g Hp (Hsub g Hg))|destruct (He g e Hp He1 Hg)].
    + constructor.
    + intros g Hg Hp. unfold says_item in Hg. apply says_items in Hg. destruct Hg as [Hg|(e & [] & _)]. destruct (Hh g Hp Hg).
    + constructor.
    + intros g _ Hp. unfold item_refs. cbn [it_decl]. rewrite all_names. right. exact Hp.
    + unfold item_refs. cbn [it_decl]. rewrite all_names. constructor; auto.
    + intros g Hg Hp. unfold says_item in Hg. apply says_items in Hg. destruct Hg as [Hg|(e & [] & _)]. destruct (Hh g Hp (Hsub g Hg)).
    + constructor.
    + intros g _ Hp. unfold item_struct. cbn [it_decl]. rewrite all_names. exact Hp.
    + unfold item_struct. cbn [it_decl]. now rewrite all_names.
Qed.
(** When the expansion of a definition resolves, exactly: no header field and no length expression uses
    a parameter, and each parameter that a varlen field, a where clause or the bounds of a declared
    parameter mentions stands on its own in the type of some varlen field. *)
Theorem C54_resolves_exact : forall d,
  resolves d <->
  NoDup (param_names d) /\ ~ In lt_a (param_names d) /\
  (forall p, In p (gd_params d) -> (exists n, gp_name p = NId n) -> gp_default p = true) /\
  (forall g, In g (param_names d) -> ~ in_header d g /\ ~ in_length d g) /\
  (forall g, In g (param_names d) ->
     in_varlen d g \/ some_mention (gd_where d) g \/
     (exists p, In p (gd_params d) /\ found d (gp_name p) /\ some_mention (gp_bounds p) g) ->
     found d g).
Proof.
  intros d. rewrite resolves_exact. split.
  - intros (H1 & H2 & H3 & H4 & H5 & H6). split; [exact H1|]. split; [exact H2|]. split; [exact H3|]. split.
    + intros g Hg. split; [intros Hx; apply (H4 g Hg), header_in, Hx|]. intros Hx. apply length_in in Hx. destruct Hx as (e & He & Hx). exact (H5 g e Hg He Hx).
    + intros g Hg Hx. apply refs_found, H6; [exact Hg|]. destruct Hx as [Hx|[Hx|(p & A & B & C)]]; [left; now apply varlen_in|auto|].
      right. right. exists p. split; [exact A|]. split; [now apply refs_found|exact C].
  - intros (H1 & H2 & H3 & H4 & H6). split; [exact H1|]. split; [exact H2|]. split; [exact H3|]. split; [|split].
    + intros g Hg Hx. apply (proj1 (H4 g Hg)), header_in, Hx.
    + intros g e Hg He Hx. apply (proj2 (H4 g Hg)), length_in. eauto.
    + intros g Hg Hx. apply refs_found, H6; [exact Hg|]. destruct Hx as [Hx|[Hx|(p & A & B & C)]]; [left; now apply varlen_in|auto|].
      right. right. exists p. split; [exact A|]. split; [now apply refs_found|exact C].
Qed.
(** For definitions whose varlen fields have plain types and that put conditions only on parameters of
    varlen fields, the expansion always resolves, as long as no header field or length expression
    mentions a parameter, every type and const parameter has a default, and no lifetime is called 'a. *)
Theorem C54_resolves_partial : forall d,
  NoDup (param_names d) -> ~ In lt_a (param_names d) ->
  (forall p, In p (gd_params d) -> (exists n, gp_name p = NId n) -> gp_default p = true) ->
  (forall g, In g (param_names d) -> ~ in_header d g /\ ~ in_length d g) ->
  (forall t, In (GfVarlen t) (gd_fields d) -> plain_ty (param_names d) t) ->
  (forall g, In g (param_names d) -> some_mention (gd_where d) g \/ (exists p, In p (gd_params d) /\ some_mention (gp_bounds p) g) ->
     in_varlen d g) ->
  resolves d.
Proof.
  intros d H1 H2 H3 H4 Hpl Hw. apply C54_resolves_exact.
  assert (Hv : forall g, In g (param_names d) -> in_varlen d g -> found d g).
  { intros g Hg (t & Ht & Hs). pose proof (Hpl t Ht) as Hp. exists t. split; [exact Ht|]. apply (proj1 (visit_occ g)).
    apply (proj1 (visit_plain (param_names d))); auto. }
  repeat (split; [assumption|]). intros g Hg [Hm|[Hm|(p & Hp1 & _ & Hm)]]; apply Hv; auto; apply Hw; eauto.
Qed.

(** Names for the examples: 'a is lifetime 0; T is identifier 1, N identifier 2. *)
Definition tyname (n : nat) : ty := TyPath QNone (PCons n ANil PNil).
Definition t_arr (t : ty) : ty := TyPath QNone (PCons 10 (ACons (GTy t) ANil) PNil).
Definition p_t : gparam := mkGp (NId 1) true [].
(** struct S<T = usize> { #[controls_layout] n: u8, #[varlen] x: Array<T>, #[varlen_array] y: [T; *n] } *)
Definition d_good : gdef :=
  mkGd [p_t] [] [GfLength (tyname 20); GfVarlen (t_arr (tyname 1)); GfArray (tyname 1) (EPath (PCons 30 ANil PNil))].
(* C53 and C54 *)
Example C53_meets : resolves d_good /\
  instance_of d_good (fun g => match g with NId 1 => Some (GTy (tyname 21)) | _ => None end) /\
  instance_of d_good (fun g => match g with NId 1 => Some (GTy (tyname 22)) | _ => None end).
Proof.
  split; [|split]; [|intros [[|[|n]]|n] H; try (exfalso; apply H; reflexivity); left; reflexivity ..].
  apply C54_resolves_partial.
  - repeat constructor; intros [].
  - intros [H|[]]. discriminate.
  - intros p [<-|[]] _. reflexivity.
  - intros g [<-|[]]. split.
    + rewrite <- header_in. intros (t & [<-|[]] & [H|[]]). discriminate.
    + rewrite <- length_in. intros (e & [<-|[]] & [H|[]]). discriminate.
  - intros t [H|[H|[H|[]]]]; try discriminate. injection H as <-. cbn. split; [|auto]. intros [H|[]]. discriminate.
  - intros g [<-|[]] [(t & [] & _)|(p & [<-|[]] & (t & [] & _))].
Qed.
(** C54. REFUTED: definitions that only use generics in ordinary ways, accepted by the macro, whose
    expansion names a generic that is not declared there (or, for the last two, lacks a default or
    declares 'a twice):
    - #[varlen] x: Array<T::Item> (a projection);
    - #[varlen] x: A<{N}> (a const parameter in an expression);
    - a header field of type T;
    - a length expression that uses N;
    - where T: Copy, with T only in an array field;
    - a parameter without default;
    - a lifetime parameter called 'a. *)
Definition d_proj : gdef := mkGd [p_t] [] [GfVarlen (t_arr (TyPath QNone (PCons 1 ANil (PCons 11 ANil PNil))))].
Definition d_const : gdef := mkGd [mkGp (NId 2) true []] [] [GfVarlen (TyPath QNone (PCons 10 (ACons (GConst (EPath (PCons 2 ANil PNil))) ANil) PNil))].
Definition d_head : gdef := mkGd [p_t] [] [GfNormal (tyname 1)].
Definition d_len : gdef := mkGd [mkGp (NId 2) true []] [] [GfArray (tyname 20) (EPath (PCons 2 ANil PNil))].
Definition d_where : gdef := mkGd [p_t] [tyname 1] [GfArray (tyname 1) (ELit 3)].
Definition d_nodefault : gdef := mkGd [mkGp (NId 1) false []] [] [GfVarlen (t_arr (tyname 1))].
Definition d_lt : gdef := mkGd [mkGp (NLt 0) false []] [] [GfVarlen (TyPath QNone (PCons 10 (ACons (GLt 0) ANil) PNil))].
Theorem C54_generics_refuted :
  forall d, In d [d_proj; d_const; d_head; d_len; d_where; d_nodefault; d_lt] -> NoDup (param_names d) /\ ~ resolves d.
Proof.
  intros d Hd. split.
  - repeat (destruct Hd as [<-|Hd]; [repeat constructor; intros []|]). destruct Hd.
  - intros H. apply resolves_exact in H. destruct H as (_ & Ha & HD & Hh & He & Hl).
    repeat (destruct Hd as [<-|Hd]).
    + destruct (Hl (NId 1) (or_introl eq_refl)). left. eexists. split; [left; reflexivity|]. cbn. auto.
    + destruct (Hl (NId 2) (or_introl eq_refl)). left. eexists. split; [left; reflexivity|]. cbn. auto.
    + apply (Hh (NId 1) (or_introl eq_refl)). eexists. split; [left; reflexivity|]. cbn. auto.
    + apply (He (NId 2) _ (or_introl eq_refl) (or_introl eq_refl)). cbn. auto.
    + destruct (Hl (NId 1) (or_introl eq_refl)). right. left. eexists. split; [left; reflexivity|]. cbn. auto.
    + discriminate (HD _ (or_introl eq_refl)). exists 1%nat. reflexivity.
    + apply Ha. left. reflexivity.
    + destruct Hd.
Qed.
(** Why the header must not mention a parameter: without that condition the header types of two
    instances differ. *)
Example C53_needs_resolution : ~ resolves d_head /\ exists s s', instance_of d_head s /\ instance_of d_head s' /\ header_of d_head s <> header_of d_head s'.
Proof.
  split; [apply (C54_generics_refuted d_head); cbn; auto|].
  exists (fun g => match g with NId 1 => Some (GTy (tyname 21)) | _ => None end), (fun g => match g with NId 1 => Some (GTy (tyname 22)) | _ => None end).
  split; [|split]; [intros [[|[|n]]|n] H; try (exfalso; apply H; reflexivity); left; reflexivity .. |]. discriminate.
Qed.
