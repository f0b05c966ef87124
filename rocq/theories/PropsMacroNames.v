(** PropsMacroNames.v - C62: which names a struct given to define_varlen may use, and that no generated name
    captures another. *)
From Coq Require Import PeanoNat Ascii.
From Verif Require Import PropsMacroSem MacroNames.

(** ** Specification *)
(** The rule for users. The module generated for the struct is not called like the struct or like a keyword
    (struct Type gets a module type); no two fields
    have the same name; no tail field (varlen or varlen_array) is called size, or has the name of an array
    field followed by _len or of a nested field followed by _layout; a tail field called lengths is not
    declared before an array field; no two tail fields have names with the same UpperCamel form. Header
    fields may have any names. *)
Record names_rule (S : tokens) (tyname modname : string) (fs : list fdecl) : Prop := {
  r_mod : modname <> tyname;
  r_kw : ~ In modname keywords;
  r_distinct : NoDup (map (fname S) fs);
  r_size : forall f, In f fs -> is_tail f = true -> fname S f <> "size"%string;
  r_len : forall f g, In f fs -> is_tail f = true -> In g fs -> kind g = Some FtVarlenArray -> fname S f <> (fname S g ++ "_len")%string;
  r_layout : forall f g, In f fs -> is_tail f = true -> In g fs -> kind g = Some FtVarlen -> fname S f <> (fname S g ++ "_layout")%string;
  r_lengths : forall before f between g after, fs = before ++ f :: between ++ g :: after ->
    is_tail f = true -> kind g = Some FtVarlenArray -> fname S f <> "lengths"%string;
  r_camel : NoDup (map (fun f => tk_camel S (fname S f)) (filter is_tail fs)) }.

(** ** Strings *)
Lemma app_inj_s (a b c : string) : (a ++ c)%string = (b ++ c)%string -> a = b.
Proof.
  assert (L : forall x y : string, String.length (x ++ y) = (String.length x + String.length y)%nat) by (induction x; cbn; intros; [reflexivity|now rewrite IHx]).
  revert b. induction a as [|x a IH]; intros [|y b] H; [reflexivity| | |].
  - exfalso. apply (f_equal String.length) in H. cbn in H. rewrite L in H. lia.
  - exfalso. apply (f_equal String.length) in H. cbn in H. rewrite L in H. lia.
  - cbn in H. injection H as -> H. f_equal. now apply IH.
Qed.
Fixpoint last_s (x : Ascii.ascii) (s : string) : Ascii.ascii := match s with EmptyString => x | String c s => last_s c s end.
Lemma last_app (a b : string) c x : last_s x (a ++ String c b)%string = last_s c b.
Proof. revert x. induction a as [|y a IH]; intros x; [reflexivity|]. cbn. apply IH. Qed.
Lemma len_not_layout (a b : string) : (a ++ "_len")%string <> (b ++ "_layout")%string.
Proof. intros H. apply (f_equal (last_s zero)) in H. rewrite !last_app in H. discriminate. Qed.
Lemma app_neq (a : string) s c t x : last_s x s <> last_s c t -> (a ++ String c t)%string <> s.
Proof. intros H E. apply H. rewrite <- E. apply last_app. Qed.
Lemma self_neq (a : string) c t : (a ++ String c t)%string <> a.
Proof. induction a as [|x a IH]; [discriminate|]. cbn. intros H. injection H as H. auto. Qed.
Lemma prefix_inj (p a b : string) : (p ++ a)%string = (p ++ b)%string -> a = b.
Proof. induction p as [|c p IH]; cbn; intros H; [exact H|]. injection H as H. auto. Qed.

(** ** The rule and the lists of names *)
Lemma entry_size S f : fentry S f <> "size"%string.
Proof. unfold fentry. destruct (kind f) as [[]|]; apply (app_neq _ "size" _ _ zero); discriminate. Qed.
Lemma entry_lengths S f : fentry S f <> "lengths"%string.
Proof. unfold fentry. destruct (kind f) as [[]|]; apply (app_neq _ "lengths" _ _ zero); discriminate. Qed.
Lemma tail_kind f : is_tail f = true -> kind f = Some FtVarlen \/ kind f = Some FtVarlenArray.
Proof. unfold is_tail, kind_is. destruct (kind f) as [[]|]; cbn; intros H; try discriminate; auto. Qed.
Lemma arr_tail f : kind f = Some FtVarlenArray -> is_tail f = true.
Proof. unfold is_tail, kind_is. intros ->. reflexivity. Qed.
Lemma entry_inj S f g : is_tail f = true -> is_tail g = true -> fentry S f = fentry S g -> fname S f = fname S g.
Proof.
  intros Hf Hg. unfold fentry. destruct (tail_kind f Hf) as [-> | ->], (tail_kind g Hg) as [-> | ->]; intros E; try (now apply app_inj_s in E).
  - symmetry in E. now apply len_not_layout in E.
  - now apply len_not_layout in E.
Qed.
Lemma in_tails f fs : In f (tails fs) <-> In f fs /\ is_tail f = true.
Proof. apply filter_In. Qed.
Lemma in_names S x fs : In x (tail_names S fs) <-> exists f, In f (tails fs) /\ (x = fname S f \/ x = fentry S f).
Proof.
  unfold tail_names. rewrite in_flat_map. split; intros (f & Hf & H); exists f; (split; [exact Hf|]); cbn in *; intuition.
Qed.
Lemma rule_names S ty md fs : names_rule S ty md fs <-> (~ In md keywords /\ md <> ty) /\ names_ok S fs.
Proof.
  split.
  - intros [R1 Rk R2 R3 R4 R5 R6 R7]. split; [exact (conj Rk R1)|]. split; [exact R2|]. split; [|split].
    + constructor.
      * intros H. apply in_names in H. destruct H as (f & Hf & [H|H]); [|now apply (entry_size S f)].
        apply in_tails in Hf. now apply (R3 f).
      * assert (D : forall f g, In f (tails fs) -> In g (tails fs) -> fname S f <> fentry S g).
        { intros f g Hf Hg. apply in_tails in Hf, Hg. unfold fentry. destruct (tail_kind g (proj2 Hg)) as [K|K]; rewrite K; [now apply R5|now apply R4]. }
        assert (N : NoDup (map (fname S) (tails fs))) by now apply NoDup_map_filter.
        assert (T : forall f, In f (tails fs) -> is_tail f = true) by (intros f Hf; now apply in_tails in Hf).
        clear -D N T. unfold tail_names. revert D N T. generalize (tails fs). induction l as [|f l IH]; intros D N T; [constructor|]. cbn [flat_map app]. cbn [map] in N. inversion N as [|? ? N1 N2]; subst.
        assert (IH' : NoDup (flat_map (fun f => [fname S f; fentry S f]) l)) by (apply IH; auto; [intros; apply D; now right|intros; apply T; now right]).
        constructor; [|constructor; [|exact IH']].
        -- intros [H|H]; [symmetry in H; revert H; apply D; now left|]. apply in_flat_map in H. destruct H as (g & Hg & [H|[H|[]]]).
           ++ apply N1. rewrite <- H. now apply in_map.
           ++ symmetry in H. revert H. apply D; [now left|now right].
        -- intros H. apply in_flat_map in H. destruct H as (g & Hg & [H|[H|[]]]).
           ++ revert H. apply D; [now right|now left].
           ++ apply entry_inj in H; [|apply T; now right|apply T; now left]. apply N1. rewrite <- H. now apply in_map.
    + intros d g r E K H. apply in_names in H. destruct H as (f & Hf & [H|H]); [|symmetry in H; now apply entry_lengths in H].
      apply in_tails in Hf. destruct Hf as [Hf Ht]. apply in_split in Hf. destruct Hf as (d1 & d2 & ->).
      rewrite <- app_assoc in E. symmetry in H. revert H. apply (R6 d1 f d2 g r); auto.
    + clear -R7. fold (tails fs) in R7. revert R7. induction (tails fs) as [|f l IH]; intros N; [constructor|]. cbn [map] in *. inversion N as [|? ? N1 N2]; subst.
      constructor; [|now apply IH]. intros H. apply in_map_iff in H. destruct H as (g & E & Hg). injection E as E. apply N1. rewrite <- E. apply (in_map (fun f => tk_camel S (fname S f))). exact Hg.
  - intros ((Rk & R1) & N1 & N2 & N3 & N4). assert (N2' := N2). inversion N2' as [|? ? Na Nb]; subst.
    assert (D : forall f g, In f (tails fs) -> In g (tails fs) -> fname S f <> fentry S g).
    { clear -Nb. unfold tail_names in Nb. revert Nb. generalize (tails fs). induction l as [|h l IH]; intros N f g Hf Hg; [destruct Hf|].
      cbn [flat_map app] in N. inversion N as [|? ? A1 A2]; subst. inversion A2 as [|? ? A3 A4]; subst. specialize (IH A4).
      destruct Hf as [<- |Hf], Hg as [<- |Hg].
      - intros E. apply A1. now left.
      - intros E. apply A1. right. apply in_flat_map. exists g. split; [exact Hg|]. cbn. auto.
      - intros E. apply A3. apply in_flat_map. exists f. split; [exact Hf|]. cbn. auto.
      - now apply IH. }
    split; auto.
    + intros f Hf Ht E. apply Na. apply in_names. exists f. split; [now apply in_tails|]. left. now symmetry.
    + intros f g Hf Ht Hg Kg E. apply (D f g); [now apply in_tails|apply in_tails; split; [exact Hg|now apply arr_tail]|]. unfold fentry. now rewrite Kg.
    + intros f g Hf Ht Hg Kg E. apply (D f g); [now apply in_tails|apply in_tails; split; [exact Hg|]|].
      * unfold is_tail, kind_is. now rewrite Kg.
      * unfold fentry. now rewrite Kg.
    + intros d f m g r E Ht K X. apply (N3 (d ++ f :: m) g r); [rewrite <- app_assoc; exact E|exact K|]. apply in_names. exists f. split; [|left; now symmetry].
      apply in_tails. split; [apply in_or_app; right; now left|exact Ht].
    + clear -N4. fold (tails fs). revert N4. induction (tails fs) as [|f l IH]; intros N; [constructor|]. cbn [map] in *. inversion N as [|? ? M1 M2]; subst.
      constructor; [|now apply IH]. intros H. apply M1. apply in_map_iff in H. destruct H as (g & E & Hg). apply in_map_iff. exists g. split; [now rewrite E|exact Hg].
Qed.

(** ** The checks *)
Lemma mem_spec x l : mem x l = true <-> In x l.
Proof. unfold mem. rewrite existsb_exists. split; [intros (y & Hy & E); apply String.eqb_eq in E; now subst|intros H; exists x; split; [exact H|apply String.eqb_refl]]. Qed.
Lemma nodupb_spec l : nodupb l = true <-> NoDup l.
Proof.
  induction l as [|x l IH]; cbn [nodupb]; [split; [constructor|reflexivity]|]. rewrite andb_true_iff, IH, negb_true_iff. split.
  - intros [H1 H2]. constructor; [|exact H2]. intros X. apply mem_spec in X. congruence.
  - intros H. inversion H as [|? ? H1 H2]; subst. split; [|exact H2]. destruct (mem x l) eqn:E; [|reflexivity]. apply mem_spec in E. contradiction.
Qed.
Lemma sty_eqb_spec a b : sty_eqb a b = true <-> a = b.
Proof. destruct a, b; cbn; try rewrite Nat.eqb_eq; split; intros H; try discriminate; try congruence; try reflexivity. Qed.
Lemma has_spec e x t : has e x t = true <-> assoc x e = Some t.
Proof.
  unfold has. destruct (assoc x e) as [u|]; [|split; discriminate]. rewrite sty_eqb_spec. split; congruence.
Qed.
Definition entry_sty (f : fdecl) : sty := match kind f with Some FtVarlenArray => SNum | _ => SLay (fd_ty f) end.
Definition named_styles (S : tokens) (tl : list fdecl) : senv := flat_map (fun f => [(fname S f, SNum); (fentry S f, entry_sty f)]) tl.
Lemma x_layout_fields S fs : layout_fields S (x_groups fs) = ("size"%string, SNum) :: named_styles S (tails fs).
Proof.
  unfold layout_fields. rewrite x_var_names, x_lay_names. cbn [x_groups g_layout_ty]. fold (tails fs). f_equal.
  assert (T : forall f, In f (tails fs) -> is_tail f = true) by (intros f Hf; now apply in_tails in Hf). revert T.
  induction (tails fs) as [|f l IH]; intros T; [reflexivity|]. cbn [map interleave combine named_styles flat_map app]. f_equal. f_equal.
  - unfold layout_sty, x_layout_ty, pick, entry_sty. destruct (tail_kind f (T f (or_introl eq_refl))) as [-> | ->]; reflexivity.
  - apply IH. intros g Hg. apply T. now right.
Qed.
Lemma styles_names S tl : map fst (named_styles S tl) = flat_map (fun f => [fname S f; fentry S f]) tl.
Proof. unfold named_styles. induction tl as [|f l IH]; [reflexivity|]. cbn [flat_map app map fst]. now rewrite IH. Qed.
Lemma layout_names S fs : map fst (layout_fields S (x_groups fs)) = "size"%string :: tail_names S fs.
Proof. rewrite x_layout_fields. cbn [map fst]. now rewrite styles_names. Qed.
Lemma len_fns_names S fs : map (render S) (g_lenexpr_ident (x_groups fs)) = map (fentry S) (filter (kind_is FtVarlenArray) fs).
Proof.
  cbn [x_groups g_lenexpr_ident]. rewrite map_map. apply map_ext_in. intros f Hf. apply filter_In in Hf. destruct Hf as [_ K]. apply kind_is_spec in K.
  unfold fentry. now rewrite K.
Qed.
(** The lets: what success means, and that the rule is enough. *)
Lemma lets_lengths S g : forall tl e e', (forall f, In f tl -> is_tail f = true) ->
  lets_ok S g (map (fname S) tl) (map (fentry S) tl) (map x_cat tl) e = Some e' ->
  forall d f r, tl = d ++ f :: r -> kind f = Some FtVarlenArray -> assoc "lengths"%string e = Some STup /\ ~ In "lengths"%string (map (fname S) d).
Proof.
  induction tl as [|h tl IH]; intros e e' T H d f r E K; [destruct d; discriminate|]. cbn [map lets_ok] in H.
  destruct (cat_ok S g e (x_cat h)) as [t|] eqn:C; [|discriminate]. destruct (nodupb _); [|discriminate].
  destruct d as [|h' d]; cbn in E; injection E as E1 E2.
  - subst h. split; [|intros []]. unfold x_cat, pick in C. rewrite K in C. unfold cat_ok in C.
    destruct (has e "size" SNum); [|discriminate]. destruct (has e "lengths" STup) eqn:X; [|discriminate]. now apply has_spec in X.
  - subst h'. destruct (IH _ _ (fun f Hf => T f (or_intror Hf)) H d f r E2 K) as [I1 I2]. cbn [assoc] in I1.
    destruct (String.eqb_spec "lengths" (fname S h)) as [X|X]; [discriminate|].
    destruct (String.eqb_spec "lengths" (fentry S h)) as [Y|Y]; [symmetry in Y; now apply entry_lengths in Y|]. cbn in I1. split; [exact I1|].
    intros [Z|Z]; [congruence|contradiction].
Qed.
Lemma assoc3 (e : senv) x l t y : y <> x -> y <> l -> y <> "size"%string -> assoc y ((x, SNum) :: (l, t) :: ("size"%string, SNum) :: e) = assoc y e.
Proof.
  intros H1 H2 H3. cbn [assoc]. rewrite (proj2 (String.eqb_neq y x)), (proj2 (String.eqb_neq y l)), (proj2 (String.eqb_neq y "size")) by auto. reflexivity.
Qed.
Lemma lets_fine S fs : NoDup (map (fname S) fs) -> forall tl e, incl tl (tails fs) ->
  NoDup ("size"%string :: flat_map (fun f => [fname S f; fentry S f]) tl) ->
  (forall d f r, tl = d ++ f :: r -> kind f = Some FtVarlenArray -> assoc "lengths"%string e = Some STup /\ ~ In "lengths"%string (map (fname S) d)) ->
  assoc "size"%string e = Some SNum ->
  exists e', lets_ok S (x_groups fs) (map (fname S) tl) (map (fentry S) tl) (map x_cat tl) e = Some e' /\ assoc "size"%string e' = Some SNum /\
    (forall f, In f tl -> assoc (fname S f) e' = Some SNum /\ assoc (fentry S f) e' = Some (entry_sty f)) /\
    (forall y, ~ In y ("size"%string :: flat_map (fun f => [fname S f; fentry S f]) tl) -> assoc y e' = assoc y e).
Proof.
  intros Hn. induction tl as [|f tl IH]; intros e Hi Hd Hl Hs.
  { exists e. split; [reflexivity|]. split; [exact Hs|]. split; [intros f []|reflexivity]. }
  assert (Hf : In f fs /\ is_tail f = true) by (apply in_tails, Hi; now left).
  cbn [flat_map app] in Hd. inversion Hd as [|? ? D1 D2]; subst. inversion D2 as [|? ? D3 D4]; subst. inversion D4 as [|? ? D5 D6]; subst.
  assert (C : cat_ok S (x_groups fs) e (x_cat f) = Some (entry_sty f)).
  { unfold cat_ok. rewrite (proj2 (has_spec e "size" SNum) Hs). unfold x_cat, pick, entry_sty. destruct (tail_kind f (proj2 Hf)) as [K|K]; rewrite K.
    - rewrite x_all_names. rewrite (proj2 (mem_spec _ _)); [reflexivity|]. apply (in_map (fname S)). tauto.
    - destruct (Hl [] f tl eq_refl K) as [L _]. rewrite (proj2 (has_spec _ _ _) L). rewrite len_fns_names. cbn [andb].
      rewrite (proj2 (mem_spec _ _)); [reflexivity|]. apply in_map_iff. exists f. split; [unfold fentry; now rewrite K|]. apply filter_In. split; [tauto|now apply kind_is_spec]. }
  assert (B : nodupb [fname S f; fentry S f; "size"%string] = true).
  { apply nodupb_spec. constructor; [|constructor; [|constructor; [intros []|constructor]]].
    - intros [H|[H|[]]]; [apply D3; now left|apply D1; left; now symmetry].
    - intros [H|[]]. apply D1. right; left. now symmetry. }
  cbn [map lets_ok]. rewrite C, B.
  destruct (IH ((fname S f, SNum) :: (fentry S f, entry_sty f) :: ("size"%string, SNum) :: e)) as (e' & E & Es & Ef & Eo).
  - intros x Hx. apply Hi. now right.
  - constructor; [intros X; apply D1; right; now right|exact D6].
  - intros d g r Ed K. destruct (Hl (f :: d) g r) as [L1 L2]; [now rewrite Ed|exact K|]. split; [|intros X; apply L2; now right].
    rewrite assoc3; [exact L1| | |discriminate].
    + intros X. apply L2. left. now symmetry.
    + intros X. symmetry in X. now apply entry_lengths in X.
  - cbn [assoc]. rewrite (proj2 (String.eqb_neq "size" (fname S f))), (proj2 (String.eqb_neq "size" (fentry S f))); [reflexivity| |].
    + intros X. apply D1. right; left. now symmetry.
    + intros X. apply D1. left. now symmetry.
  - exists e'. split; [exact E|]. split; [exact Es|]. split.
    + intros g [<- |Hg]; [|now apply Ef]. split.
      * rewrite Eo; [cbn [assoc]; now rewrite String.eqb_refl|]. intros [X|X]; [apply D1; left; now symmetry|]. apply D3. now right.
      * rewrite Eo; [cbn [assoc]|intros [X|X]; [apply D1; right; left; now symmetry|now apply D5]].
        rewrite (proj2 (String.eqb_neq (fentry S f) (fname S f))); [now rewrite String.eqb_refl|]. intros X. apply D3. left. exact X.
    + intros y Hy. rewrite Eo; [|intros [X|X]; apply Hy; [now left|right; right; now right]]. apply assoc3; intros X; apply Hy; rewrite X; cbn; auto.
Qed.
Lemma calc_fine S fs : names_ok S fs -> calc_ok S (x_groups fs) (map x_cat (tails fs)) = true.
Proof.
  intros (N1 & N2 & N3 & N4). unfold calc_ok. rewrite x_var_names, x_lay_names.
  destruct (lets_fine S fs N1 (tails fs) [("size"%string, SNum); ("lengths"%string, STup)]) as (e & -> & Es & Ef & _).
  - apply incl_refl.
  - exact N2.
  - intros d f r E K. split; [reflexivity|]. intros X. apply in_map_iff in X. destruct X as (h & Eh & Hh).
    assert (Hf : In f fs) by (apply (in_tails f fs); rewrite E; apply in_or_app; right; now left).
    (* the split of the tails comes from a split of the fields *)
    assert (Sp : exists d' r', fs = d' ++ f :: r' /\ In h (tails d')).
    { clear -E Hh. unfold tails in E. revert d E Hh. induction fs as [|g fs IH]; intros d E Hh; [destruct d; discriminate|]. cbn [filter] in E.
      destruct (is_tail g) eqn:T.
      - destruct d as [|g' d]; [destruct Hh|]. cbn in E. injection E as -> E. destruct Hh as [-> |Hh].
        + assert (In f (filter is_tail fs)) as X by (rewrite E; apply in_or_app; right; now left). apply filter_In in X. destruct X as [X _]. apply in_split in X. destruct X as (d1 & d2 & ->).
          exists (h :: d1), d2. split; [reflexivity|]. apply in_tails. split; [now left|exact T].
        + destruct (IH d E Hh) as (d' & r' & -> & H). exists (g' :: d'), r'. split; [reflexivity|]. apply in_tails in H. apply in_tails. split; [right; tauto|tauto].
      - destruct (IH d E Hh) as (d' & r' & -> & H). exists (g :: d'), r'. split; [reflexivity|]. apply in_tails in H. apply in_tails. split; [right; tauto|tauto]. }
    destruct Sp as (d' & r' & -> & Hh'). apply (N3 d' f r' eq_refl K). apply in_names. exists h. split; [exact Hh'|]. left. now symmetry.
  - reflexivity.
  - rewrite x_layout_fields. cbn [forallb]. rewrite (proj2 (has_spec _ _ _) Es). cbn [andb]. apply forallb_forall. intros [x t] H.
    unfold named_styles in H. apply in_flat_map in H. destruct H as (f & Hf & H). destruct (Ef f Hf) as [E1 E2]. apply has_spec.
    destruct H as [H|[H|[]]]; injection H as <- <-; assumption.
Qed.
(** Fields of the layout struct and of the struct, by name. *)
Lemma has_name S fs f : names_ok S fs -> In f (tails fs) ->
  has (layout_fields S (x_groups fs)) (fname S f) SNum = true /\ has (layout_fields S (x_groups fs)) (fentry S f) (entry_sty f) = true.
Proof.
  intros (N1 & N2 & _) Hf. assert (ND : NoDup (map fst (layout_fields S (x_groups fs)))) by (rewrite layout_names; exact N2).
  assert (In (fname S f, SNum) (layout_fields S (x_groups fs)) /\ In (fentry S f, entry_sty f) (layout_fields S (x_groups fs))) as [H1 H2].
  { rewrite x_layout_fields. split; right; apply in_flat_map; exists f; (split; [exact Hf|]); cbn; auto. }
  split; apply has_spec; now apply assoc_in.
Qed.
Lemma header_fine S fs f : NoDup (map (fname S) fs) -> In f fs -> is_tail f = false -> kind f <> None -> header_field S (x_groups fs) (IName (fd_name f)) = true.
Proof.
  intros N Hi Ht K. unfold header_field. cbn [render]. fold (fname S f). rewrite (x_decl_of S fs f N Hi). unfold x_decl, pick.
  unfold is_tail, kind_is in Ht. destruct (kind f) as [[]|]; try discriminate; try reflexivity.
Qed.
Lemma cover f : legal f -> (is_tail f = false /\ (kind f = Some FtNormal \/ kind f = Some FtLength)) \/ (is_tail f = true /\ kind f = Some FtVarlen) \/ (is_tail f = true /\ kind f = Some FtVarlenArray).
Proof. intros [(k & K & _) _]. unfold is_tail, kind_is. rewrite K. destruct k; cbn; auto. Qed.

(** C62. rustc accepts the names in the expansion exactly for the structs that follow the rule. *)
Theorem C62_names_exact : forall S tyname modname fs g,
  parse_fields fs = Some g -> (expansion_ok S tyname modname g = true <-> names_rule S tyname modname fs).
Proof.
  intros S ty md fs g Hp. destruct (accepted _ _ Hp) as [HL ->]. rewrite rule_names. unfold expansion_ok. rewrite !andb_true_iff, !nodupb_spec. split.
  - intros ((((((((((((Hk & H1) & H2) & H3) & H4) & H5) & H6) & H7) & H8) & H9) & H10) & H11) & H12). split; [split|split; [|split; [|split]]].
    + intros X. apply mem_spec in X. rewrite X in Hk. discriminate.
    + intros ->. inversion H1 as [|? ? X _]; subst. apply X. now left.
    + now rewrite x_all_names in H2.
    + now rewrite layout_names in H4.
    + unfold calc_ok in H7. rewrite x_var_names, x_lay_names in H7. change (g_cat_fast (x_groups fs)) with (map x_cat (tails fs)) in H7.
      destruct (lets_ok _ _ _ _ _ _) as [e|] eqn:E; [|discriminate]. intros d f r Es K X.
      assert (T : forall f, In f (tails fs) -> is_tail f = true) by (intros x Hx; now apply in_tails in Hx).
      assert (Sp : tails fs = tails d ++ f :: tails r) by (rewrite Es; unfold tails; rewrite filter_app; cbn [filter]; now rewrite (arr_tail f K)).
      destruct (lets_lengths S _ _ _ _ T E (tails d) f (tails r) Sp K) as [_ L]. apply in_names in X. destruct X as (h & Hh & [X|X]); [|symmetry in X; now apply entry_lengths in X].
      apply L. rewrite X. now apply in_map.
    + cbn [x_groups g_init_params] in H6. rewrite map_map in H6. exact H6.
  - intros [[Rk R1] Hok]. pose proof Hok as (N1 & N2 & N3 & N4). assert (K : forall f, In f fs -> legal f) by (now apply Forall_forall).
    repeat match goal with |- _ /\ _ => split end.
    + destruct (mem md keywords) eqn:X; [|reflexivity]. now apply mem_spec in X.
    + constructor; [|constructor; [intros []|constructor]]. intros [X|[]]. congruence.
    + now rewrite x_all_names.
    + rewrite x_len_names. now apply NoDup_map_filter.
    + rewrite layout_names. exact N2.
    + rewrite len_fns_names. rewrite filter_filter_arr. apply NoDup_map_filter. inversion N2; subst. now apply names_entry.
    + cbn [x_groups g_init_params]. rewrite map_map. exact N4.
    + now apply calc_fine.
    + now apply calc_fine.
    + apply forallb_forall. intros x Hx. cbn [x_groups g_drop_field] in Hx. apply in_map_iff in Hx. destruct Hx as (f & <- & Hf). unfold drop_ok, x_drop, pick.
      destruct (cover f (K f Hf)) as [[T [C|C]]|[[T C]|[T C]]]; rewrite C.
      1,2: apply header_fine; auto; congruence.
      all: destruct (has_name S fs f Hok) as [A B]; [now apply in_tails|]; cbn [render]; unfold entry_sty, fentry in B; rewrite C in B; unfold fname in *; now rewrite A, B.
    + apply forallb_forall. intros x Hx. cbn [x_groups g_ref_field] in Hx. apply in_map_iff in Hx. destruct Hx as (f & <- & Hf). unfold ref_ok, x_ref, pick.
      destruct (cover f (K f Hf)) as [[T [C|C]]|[[T C]|[T C]]]; rewrite C.
      1,2: apply header_fine; auto; congruence.
      all: destruct (has_name S fs f Hok) as [A B]; [now apply in_tails|]; cbn [render]; unfold entry_sty, fentry in B; rewrite C in B; unfold fname in *; now rewrite A, ?B.
    + apply forallb_forall. intros x Hx. cbn [x_groups g_mut_field] in Hx. apply in_map_iff in Hx. destruct Hx as (f & <- & Hf). unfold mut_ok, x_mut, pick.
      destruct (cover f (K f Hf)) as [[T [C|C]]|[[T C]|[T C]]]; rewrite C.
      1,2: apply header_fine; auto; congruence.
      all: destruct (has_name S fs f Hok) as [A B]; [now apply in_tails|]; cbn [render]; unfold entry_sty, fentry in B; rewrite C in B; unfold fname in *; now rewrite A, ?B.
    + apply forallb_forall. intros [x q] Hx. rewrite x_all_names in Hx. cbn [x_groups g_init_field] in Hx. rewrite combine_map in Hx. apply in_map_iff in Hx. destruct Hx as (f & E & Hf). injection E as <- <-.
      unfold init_ok_n. cbn [fst snd]. rewrite (x_decl_of S fs f N1 Hf). rewrite x_all_names. assert (M : mem (fname S f) (map (fname S) fs) = true) by (apply mem_spec, in_map, Hf).
      unfold x_init, x_decl, pick.
      destruct (cover f (K f Hf)) as [[T [C|C]]|[[T C]|[T C]]]; rewrite C; cbn [render]; unfold fname in *.
      1,2: exact M.
      all: destruct (has_name S fs f Hok) as [A B]; [now apply in_tails|]; unfold entry_sty, fentry in B; rewrite C in B; unfold fname in *; now rewrite M, A, B.
Qed.
(** And then the names are as the theorems of C49 need them: every generated name refers to its own field. *)
Theorem C62_no_capture : forall S tyname modname fs g,
  parse_fields fs = Some g -> expansion_ok S tyname modname g = true -> names_ok S fs.
Proof. intros S ty md fs g Hp H. apply (C62_names_exact S ty md fs g Hp) in H. now apply rule_names in H. Qed.

(** ** Concrete structs *)
(** The struct of C49_meets follows the rule; fs_ex has fields n, d (header), s (nested), xs (array); other
    names for the same fields, each against one clause of the rule; and names that look dangerous but are
    allowed: header fields called size, xs_len and lengths, and a nested field called xs_layout. *)
Definition tok_named (a b c d : string) : tokens :=
  mkTok (fun n => match n with 0%nat => a | 1%nat => b | 2%nat => c | _ => d end) (fun x => if String.eqb x "s_" then "s" else x)%string
    (tk_vty tok_ex) (tk_fty tok_ex) (tk_expr tok_ex) (tk_off tok_ex) 8 4.
Definition accepts (modname : string) (S : tokens) : option bool :=
  option_map (expansion_ok S "T" modname) (parse_fields fs_ex).
Example C62_meets :
  (exists g, parse_fields fs_ex = Some g /\ expansion_ok tok_ex "T" "t" g = true) /\ names_rule tok_ex "T" "t" fs_ex /\
  accepts "t" (tok_named "size" "xs_len" "s" "xs") = Some true /\
  accepts "t" (tok_named "lengths" "s_layout" "xs_layout" "xs") = Some true /\
  accepts "T" (tok_named "n" "d" "s" "xs") = Some false /\
  accepts "type" (tok_named "n" "d" "s" "xs") = Some false /\
  accepts "t" (tok_named "n" "n" "s" "xs") = Some false /\
  accepts "t" (tok_named "n" "xs" "s" "xs") = Some false /\
  accepts "t" (tok_named "n" "d" "size" "xs") = Some false /\
  accepts "t" (tok_named "n" "d" "s" "size") = Some false /\
  accepts "t" (tok_named "n" "d" "xs_len" "xs") = Some false /\
  accepts "t" (tok_named "n" "d" "s" "s_layout") = Some false /\
  accepts "t" (tok_named "n" "d" "lengths" "xs") = Some false /\
  accepts "t" (tok_named "n" "d" "s" "lengths") = Some true /\
  accepts "t" (tok_named "n" "d" "s" "s_") = Some false.
Proof.
  split; [eexists; split; reflexivity|]. split; [|vm_compute; repeat split; reflexivity].
  apply (C62_names_exact tok_ex "T" "t" fs_ex _ eq_refl). reflexivity.
Qed.
