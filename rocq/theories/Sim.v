(** Sim.v - a proof device for C59: a world in which some live blocks are replaced by disjoint parts of
    them. Every access that is fine in the divided world is fine in the real one, so whatever an
    operation does in the divided world (other than accesses outside of the parts and bad calls of
    dealloc) it also does in the real one. *)
From Verif Require Export ProgSteps.

(** ** dividing blocks *)
(** [G] lists the divided blocks with their parts; the parts are not heap blocks. *)
Definition division : Type := list (block * list block).
Definition kept (G : division) (bl : list block) (b : block) : Prop := In b bl /\ ~ In b (map fst G).
Definition divided (G : division) (bl blv : list block) : Prop :=
  (forall b, In b blv <-> kept G bl b \/ exists g, In g G /\ In b (snd g)) /\
  (forall g, In g G -> In (fst g) bl /\
     forall c, In c (snd g) -> b_heap c = false /\ b_base (fst g) <= b_base c /\ b_base c + b_size c <= b_base (fst g) + b_size (fst g)).
(** Answers of the allocator that meet a divided block are failures. *)
Definition outside (G : division) (al : nat -> N -> N -> option N) : nat -> N -> N -> option N :=
  fun k size align =>
    match al k size align with
    | Some a => if forallb (disjoint_from a size) (map fst G) then Some a else None
    | None => None
    end.
Definition Rw (G : division) (w wv : world) : Prop :=
  w_mem wv = w_mem w /\ w_tick wv = w_tick w /\ w_log wv = w_log w /\ w_alloc wv = outside G (w_alloc w) /\
  wf_blocks (w_blocks w) /\ wf_blocks (w_blocks wv) /\ divided G (w_blocks w) (w_blocks wv).

Lemma in_del bl a b : In b (del_block bl a) <-> In b bl /\ b_base b <> a.
Proof. unfold del_block. rewrite filter_In. destruct (N.eqb_spec (b_base b) a); cbn; intuition congruence. Qed.
Lemma wf_del bl a : wf_blocks bl -> wf_blocks (del_block bl a).
Proof.
  intros [H1 H2]. split; [intros b Hb; apply in_del in Hb; apply H1, Hb|].
  unfold del_block. induction H2 as [|b l Hf Hp IH]; cbn [filter]; [constructor|].
  assert (H1' : forall b, In b l -> b_base b <> 0 /\ 0 < b_size b /\ b_base b + b_size b < W) by (intros c Hc; apply H1; right; exact Hc).
  destruct (negb (b_base b =? a)); [|auto]. constructor; [|auto].
  rewrite Forall_forall in *. intros c Hc. apply filter_In in Hc. apply Hf, Hc.
Qed.
Lemma divided_inb G w wv a n : Rw G w wv -> inb wv a n = true -> inb w a n = true.
Proof.
  intros (_ & _ & _ & _ & _ & _ & Hd & Hg). unfold inb. destruct (n =? 0); [auto|]. cbn [orb]. rewrite !existsb_exists.
  intros (b & Hb & E). unfold in_block in *. apply Hd in Hb. destruct Hb as [[Hb _]|(g & Hg1 & Hb)]; [eauto|].
  destruct (Hg g Hg1) as [Hf Hc]. destruct (Hc b Hb) as (_ & C1 & C2). exists (fst g). split; [exact Hf|].
  apply andb_prop in E as [E1 E2]. apply N.leb_le in E1, E2. apply andb_true_intro. split; apply N.leb_le; lia.
Qed.
Lemma block_dec (x y : block) : {x = y} + {x <> y}.
Proof. decide equality; try apply N.eq_dec. apply Bool.bool_dec. Qed.
Lemma divided_valid G bl blv al k a size align :
  divided G bl blv -> al k size align = Some a ->
  match outside G al k size align with
  | Some a' => a' = a /\ valid_answer blv a size align = valid_answer bl a size align
  | None => valid_answer bl a size align = false
  end.
Proof.
  intros [Hd Hg] E. unfold outside. rewrite E. destruct (forallb (disjoint_from a size) (map fst G)) eqn:Ef.
  - split; [reflexivity|]. rewrite forallb_forall in Ef. unfold valid_answer. f_equal.
    apply eq_true_iff_eq. rewrite !forallb_forall. split; intros H b Hb.
    + destruct (in_dec block_dec b (map fst G)) as [Hi|Hn]; [apply Ef, Hi|].
      apply H, Hd. left. split; auto.
    + apply Hd in Hb. destruct Hb as [[Hb _]|(g & Hg1 & Hb)]; [apply H, Hb|].
      destruct (Hg g Hg1) as [_ Hc]. destruct (Hc b Hb) as (_ & C1 & C2). specialize (Ef (fst g) (in_map fst _ _ Hg1)).
      unfold disjoint_from in *. apply orb_true_iff in Ef. apply orb_true_iff. rewrite !N.leb_le in *. lia.
  - unfold valid_answer. apply andb_false_intro2. apply not_true_iff_false. rewrite forallb_forall. intros H.
    apply not_true_iff_false in Ef. apply Ef. apply forallb_forall. intros b Hb. apply in_map_iff in Hb.
    destruct Hb as (g & <- & Hg1). apply H. apply (Hg g Hg1).
Qed.
Lemma divided_cons G bl blv a size align hp : divided G bl blv -> valid_answer bl a size align = true -> 0 < size -> wf_blocks bl ->
  divided G (mkB a size align hp :: bl) (mkB a size align hp :: blv).
Proof.
  intros [Hd Hg] Hv Hs Hwf. pose proof (wf_blocks_cons bl a size align hp Hwf Hv Hs) as [Hw1 Hw2].
  assert (Hnew : ~ In (mkB a size align hp) (map fst G)).
  { intros Hi. apply in_map_iff in Hi. destruct Hi as (g & E & Hg1). destruct (Hg g Hg1) as [Hf _].
    inversion Hw2 as [|x l Hall Hp]; subst. rewrite Forall_forall in Hall. specialize (Hall _ Hf). rewrite E in Hall.
    unfold blocks_apart in Hall. cbn in Hall. lia. }
  split.
  - intros b. cbn [In]. unfold kept. cbn [In]. rewrite Hd. unfold kept. split.
    + intros [<-|[[H1 H2]|H]]; auto.
    + intros [[[<-|H1] H2]|H]; auto.
  - intros g Hg1. destruct (Hg g Hg1) as [H1 H2]. split; [right; exact H1|exact H2].
Qed.
Lemma divided_block G bl blv a size align : wf_blocks bl -> wf_blocks blv -> divided G bl blv -> is_block blv a size align = true ->
  is_block bl a size align = true /\ divided G (del_block bl a) (del_block blv a).
Proof.
  intros Hwf Hwfv [Hd Hg] H. unfold is_block in *. apply existsb_exists in H. destruct H as (b & Hb & E).
  pose proof E as E'. unfold block_eqb in E'. repeat (apply andb_prop in E' as [E' ?]). apply N.eqb_eq in E'.
  assert (Hk : kept G bl b).
  { apply Hd in Hb. destruct Hb as [Hk|(g & Hg1 & Hc)]; [exact Hk|]. destruct (proj2 (Hg g Hg1) b Hc) as [Hh _]. congruence. }
  split; [apply existsb_exists; exists b; split; [apply Hk|exact E]|]. split.
  - intros c. rewrite in_del, Hd. unfold kept. rewrite in_del. split.
    + intros [[[H1' H2]|H1'] H3]; [left; auto|right; exact H1'].
    + intros [[[H1' H2] H3]|(g & Hg1 & Hc)]; [auto|]. split; [right; eauto|]. intros Ec.
      assert (c = b). { eapply (wf_same_base blv); eauto; [apply Hd; right; eauto|congruence]. }
      subst c. destruct (proj2 (Hg g Hg1) b Hc) as [Hh _]. congruence.
  - intros g Hg1. destruct (Hg g Hg1) as [H1' H2]. split; [|exact H2]. apply in_del. split; [exact H1'|]. intros Ec.
    assert (fst g = b). { eapply (wf_same_base bl); eauto; [apply Hk|congruence]. }
    apply (proj2 Hk). subst b. now apply in_map.
Qed.

(** ** computations that do the same in both worlds *)
Definition sim {S A} (Q : S -> S -> Prop) (m : M S A) : Prop :=
  forall s sv, Q s sv ->
    match m sv with
    | Ok a sv' => exists s', m s = Ok a s' /\ Q s' sv'
    | Panic sv' => exists s', m s = Panic s' /\ Q s' sv'
    | UB u => u = UOob \/ u = UDealloc \/ m s = UB u
    end.
Definition Rx {X} (G : division) (p q : world * X) : Prop := Rw G (fst p) (fst q) /\ snd p = snd q.

Lemma sim_ret {S A} Q (a : A) : @sim S A Q (ret a).
Proof. intros s sv H. cbn. eauto. Qed.
Lemma sim_panic {S A} Q : @sim S A Q panic.
Proof. intros s sv H. cbn. eauto. Qed.
Lemma sim_undef {S A} Q u : @sim S A Q (undef u).
Proof. intros s sv H. right. right. reflexivity. Qed.
Lemma sim_bind {S A B} Q (m : M S A) (k : A -> M S B) : sim Q m -> (forall a, sim Q (k a)) -> sim Q (bind m k).
Proof.
  intros Hm Hk s sv H. unfold bind. specialize (Hm s sv H). destruct (m sv) as [a sv'|sv'|u].
  - destruct Hm as (s' & -> & H'). exact (Hk a s' sv' H').
  - destruct Hm as (s' & -> & H'). eauto.
  - destruct Hm as [Hm|[Hm|Hm]]; [tauto|tauto|]. rewrite Hm. auto.
Qed.
Lemma sim_unwind {S A} Q (m : M S A) c : sim Q m -> sim Q c -> sim Q (on_unwind m c).
Proof.
  intros Hm Hc s sv H. unfold on_unwind. specialize (Hm s sv H). destruct (m sv) as [a sv'|sv'|u].
  - destruct Hm as (s' & -> & H'). eauto.
  - destruct Hm as (s' & -> & H'). specialize (Hc s' sv' H'). destruct (c sv') as [x sv2|sv2|u];
      [destruct Hc as (s2 & -> & H2); eauto|destruct Hc as (s2 & -> & H2); eauto|]. destruct Hc as [Hc|[Hc|Hc]]; [tauto|tauto|]. rewrite Hc. auto.
  - destruct Hm as [Hm|[Hm|Hm]]; [tauto|tauto|]. rewrite Hm. auto.
Qed.
Lemma sim_each {S A} Q (body : A -> M S unit) l : (forall a, sim Q (body a)) -> sim Q (for_each body l).
Proof. intros H. induction l as [|x l IH]; cbn [for_each]; [apply sim_ret|apply sim_bind; auto]. Qed.
Lemma sim_mapM {S A B} Q (body : A -> M S B) l : (forall a, sim Q (body a)) -> sim Q (mapM body l).
Proof.
  intros H. induction l as [|x l IH]; cbn [mapM]; [apply sim_ret|]. apply sim_bind; [auto|]. intros y. apply sim_bind; [auto|].
  intros ys. apply sim_ret.
Qed.
Create HintDb sims.
#[export] Hint Resolve sim_ret sim_panic sim_undef : sims.

Lemma sim_ref G a n al : sim (Rw G) (check_ref a n al).
Proof.
  intros w wv H. unfold check_ref. destruct (a =? 0); [auto|]. destruct (negb (a mod al =? 0)); [auto|].
  destruct (inb wv a n) eqn:E; [|left; reflexivity]. rewrite (divided_inb G w wv a n H E). cbn [negb]. exists w. split; [reflexivity|exact H].
Qed.
Lemma sim_mem G (g : (N -> cell) -> (N -> cell)) : sim (Rw G) (fun w => Ok tt (set_mem w (g (w_mem w)))).
Proof.
  intros w wv (H1 & H2 & H3 & H4 & H5). eexists. split; [reflexivity|]. split; [cbn; now rewrite H1|]. repeat (split; [assumption|]). exact H5.
Qed.
Lemma sim_emit G e : sim (Rw G) (emit e).
Proof.
  intros w wv (H1 & H2 & H3 & H4 & H5). eexists. split; [reflexivity|]. split; [exact H1|]. split; [exact H2|]. split; [cbn; now rewrite H3|].
  split; [exact H4|exact H5].
Qed.
#[export] Hint Resolve sim_ref sim_mem sim_emit : sims.
Lemma sim_load G a n al : sim (Rw G) (load a n al).
Proof. apply sim_bind; [auto with sims|]. intros _ w wv H. destruct H as (H1 & H). rewrite H1. eexists. split; [reflexivity|]. split; auto. Qed.
Lemma sim_store G a al bs : sim (Rw G) (store a al bs).
Proof. apply sim_bind; auto with sims. intros _. apply (sim_mem G (fun m => wr m a bs)). Qed.
Lemma sim_copy G src dst n al : sim (Rw G) (copy_nonoverlapping src dst n al).
Proof.
  apply sim_bind; auto with sims. intros _. apply sim_bind; auto with sims. intros _ w wv H.
  destruct ((n =? 0) || (src + n <=? dst) || (dst + n <=? src)); [|auto]. apply (sim_mem G (fun m => move m src dst n) w wv H).
Qed.
Lemma sim_copy_bytes G src dst n : sim (Rw G) (copy_bytes src dst n).
Proof. apply sim_bind; auto with sims. intros _. apply sim_bind; auto with sims. intros _. apply (sim_mem G (fun m => move m src dst n)). Qed.
Lemma sim_fill_zero G a n : sim (Rw G) (fill_zero a n).
Proof. apply sim_bind; auto with sims. intros _. apply (sim_mem G (fun m => fill m a n (By 0))). Qed.
Lemma sim_padd {S} (Q : S -> S -> Prop) a b : sim Q (padd a b).
Proof. unfold padd. destruct (_ <? _); auto with sims. Qed.
Lemma sim_pmul {S} (Q : S -> S -> Prop) a b : sim Q (pmul a b).
Proof. unfold pmul. destruct (_ <? _); auto with sims. Qed.
Lemma Rw_tick G w wv : Rw G w wv -> Rw G (tick w) (tick wv).
Proof. intros (H1 & H2 & H3 & H4 & H5). split; [exact H1|]. split; [cbn; now rewrite H2|]. repeat (split; [assumption|]). exact H5. Qed.
Lemma sim_alloc G size align : sim (Rw G) (alloc size align).
Proof.
  intros w wv H. pose proof H as (H1 & H2 & H3 & H4 & H5 & H6 & H7). unfold alloc. destruct (N.eqb_spec size 0) as [|Hs]; [auto|].
  rewrite H4, H2. destruct (w_alloc w (w_tick w) size align) as [a|] eqn:Ea; [|unfold outside; rewrite Ea; eexists; split; [reflexivity|now apply Rw_tick]].
  pose proof (divided_valid G _ _ (w_alloc w) (w_tick w) a size align H7 Ea) as Hv. destruct (outside _ _ _ _ _) as [a'|].
  - destruct Hv as [-> Hv]. rewrite Hv. destruct (valid_answer (w_blocks w) a size align) eqn:Ev.
    + eexists. split; [reflexivity|]. split; [cbn; now rewrite H1|]. split; [reflexivity|]. split; [cbn; now rewrite H3|]. split; [reflexivity|]. cbn [w_blocks].
      split; [apply wf_blocks_cons; auto; lia|]. split; [apply wf_blocks_cons; auto; lia|]. apply divided_cons; auto; lia.
    + eexists. split; [reflexivity|now apply Rw_tick].
  - rewrite Hv. eexists. split; [reflexivity|now apply Rw_tick].
Qed.
Lemma sim_bump G size align : sim (Rw G) (bump_alloc size align).
Proof.
  intros w wv H. pose proof H as (H1 & H2 & H3 & H4 & H5 & H6 & H7). unfold bump_alloc.
  rewrite H4, H2. destruct (w_alloc w (w_tick w) size align) as [a|] eqn:Ea; [|unfold outside; rewrite Ea; eexists; split; [reflexivity|now apply Rw_tick]].
  pose proof (divided_valid G _ _ (w_alloc w) (w_tick w) a size align H7 Ea) as Hv. destruct (outside _ _ _ _ _) as [a'|].
  - destruct Hv as [-> Hv]. rewrite Hv. destruct (valid_answer (w_blocks w) a size align) eqn:Ev; [|eexists; split; [reflexivity|now apply Rw_tick]].
    destruct (N.eqb_spec size 0) as [|Hs]; [eexists; split; [reflexivity|now apply Rw_tick]|].
    eexists. split; [reflexivity|]. split; [cbn; now rewrite H1|]. split; [reflexivity|]. split; [exact H3|]. split; [reflexivity|]. cbn [w_blocks].
    split; [apply wf_blocks_cons; auto; lia|]. split; [apply wf_blocks_cons; auto; lia|]. apply divided_cons; auto; lia.
  - rewrite Hv. eexists. split; [reflexivity|now apply Rw_tick].
Qed.
Lemma sim_dealloc G a size align : sim (Rw G) (dealloc a size align).
Proof.
  intros w wv H. pose proof H as (H1 & H2 & H3 & H4 & H5 & H6 & H7). unfold dealloc.
  destruct (is_block (w_blocks wv) a size align) eqn:E; [|right; left; reflexivity]. destruct (divided_block G _ _ a size align H5 H6 H7 E) as [-> Hd].
  eexists. split; [reflexivity|]. split; [exact H1|]. split; [exact H2|]. split; [cbn; now rewrite H3|]. split; [exact H4|]. cbn.
  split; [now apply wf_del|]. split; [now apply wf_del|exact Hd].
Qed.
Lemma sim_realloc G a size align ns : sim (Rw G) (realloc a size align ns).
Proof.
  intros w wv H. pose proof H as (H1 & H2 & H3 & H4 & H5 & H6 & H7). unfold realloc. destruct (N.eqb_spec ns 0) as [|Hs]; [auto|].
  destruct (is_block (w_blocks wv) a size align) eqn:E; [|right; left; reflexivity]. destruct (divided_block G _ _ a size align H5 H6 H7 E) as [-> Hd]. cbn [negb].
  rewrite H4, H2. destruct (w_alloc w (w_tick w) ns align) as [a1|] eqn:Ea; [|unfold outside; rewrite Ea; eexists; split; [reflexivity|now apply Rw_tick]].
  pose proof (divided_valid G _ _ (w_alloc w) (w_tick w) a1 ns align Hd Ea) as Hv. destruct (outside _ _ _ _ _) as [a'|].
  - destruct Hv as [-> Hv]. rewrite Hv. destruct (valid_answer (del_block (w_blocks w) a) a1 ns align) eqn:Ev; [|eexists; split; [reflexivity|now apply Rw_tick]].
    eexists. split; [reflexivity|]. split; [cbn; now rewrite H1|]. split; [reflexivity|]. split; [cbn; now rewrite H3|]. split; [reflexivity|]. cbn [w_blocks].
    split; [apply wf_blocks_cons; auto; [now apply wf_del|lia]|]. split; [apply wf_blocks_cons; auto; [now apply wf_del|lia]|]. apply divided_cons; auto; [lia|now apply wf_del].
  - rewrite Hv. eexists. split; [reflexivity|now apply Rw_tick].
Qed.
#[export] Hint Resolve sim_load sim_store sim_copy sim_copy_bytes sim_fill_zero sim_padd sim_pmul sim_alloc sim_bump sim_dealloc sim_realloc : sims.

(** ** the code of the crate *)
Ltac sim :=
  repeat first
    [ assumption
    | solve [eauto 2 with sims]
    | apply sim_bind; [|intros ?]
    | apply sim_unwind
    | apply sim_each; intros ?
    | apply sim_mapM; intros ?
    | match goal with
      | |- sim _ (let '(_, _) := ?x in _) => destruct x as [? ?]
      | |- sim _ (match ?x with _ => _ end) => destruct x as [] eqn:?
      | |- sim _ (let _ := _ in _) => cbv zeta
      end ].
Lemma sim_load_len G k a : sim (Rw G) (load_len k a).
Proof. unfold load_len. sim. Qed.
Lemma sim_load_ctrls G fs a : sim (Rw G) (load_ctrls fs a).
Proof. unfold load_ctrls. sim. Qed.
Lemma sim_len_call G n : sim (Rw G) (len_call n).
Proof. unfold len_call. sim. Qed.
#[export] Hint Resolve sim_load_len sim_load_ctrls sim_len_call : sims.
Lemma sim_layout2 G :
  (forall t a, sim (Rw G) (calc_layout t a)) /\ (forall fs cs a size, sim (Rw G) (calc_tail fs cs a size)).
Proof. apply vty_flds_ind; intros; cbn [calc_layout calc_tail]; sim; auto. all: sim; auto. all: sim; auto. Qed.
Lemma sim_layout G t a : sim (Rw G) (calc_layout t a).
Proof. apply sim_layout2. Qed.
#[export] Hint Resolve sim_layout : sims.
Lemma sim_init_layout2 G :
  (forall t i, sim (Rw G) (init_layout t i)) /\ (forall fs is_ cs size, sim (Rw G) (init_tail fs is_ cs size)).
Proof. apply vty_flds_ind; intros; cbn [init_layout init_tail]; sim. Qed.
Lemma sim_init_layout G t i : sim (Rw G) (init_layout t i).
Proof. apply sim_init_layout2. Qed.
Lemma sim_drop_leaf G f a : sim (Rw G) (drop_leaf f a).
Proof. unfold drop_leaf. sim. Qed.
Lemma sim_drop_value G f v : sim (Rw G) (drop_value f v).
Proof. unfold drop_value. sim. Qed.
#[export] Hint Resolve sim_init_layout sim_drop_leaf sim_drop_value : sims.
Lemma sim_drop_array G f a off n : sim (Rw G) (drop_array f a off n).
Proof. unfold drop_array. sim. Qed.
#[export] Hint Resolve sim_drop_array : sims.
Lemma sim_vdrop2 G :
  (forall t a l, sim (Rw G) (vdrop t a l)) /\ (forall fs a es, sim (Rw G) (vdrop_flds fs a es)).
Proof. apply vty_flds_ind; intros; cbn [vdrop vdrop_flds]; sim. Qed.
Lemma sim_vdrop G t a l : sim (Rw G) (vdrop t a l).
Proof. apply sim_vdrop2. Qed.
#[export] Hint Resolve sim_vdrop : sims.
Lemma sim_vbox_drop G t a : sim (Rw G) (vbox_drop t a).
Proof. unfold vbox_drop. sim. Qed.
Lemma sim_owned_drop G t a : sim (Rw G) (owned_drop t a).
Proof. unfold owned_drop. sim. Qed.
Lemma sim_drop_ainit G f ai : sim (Rw G) (drop_ainit f ai).
Proof. unfold drop_ainit. sim. Qed.
#[export] Hint Resolve sim_vbox_drop sim_owned_drop sim_drop_ainit : sims.
Lemma sim_drop_init2 G :
  (forall t i, sim (Rw G) (drop_init t i)) /\ (forall fs is_, sim (Rw G) (drop_flds fs is_)).
Proof. apply vty_flds_ind; intros; cbn [drop_init drop_flds]; sim. Qed.
Lemma sim_drop_init G t i : sim (Rw G) (drop_init t i).
Proof. apply sim_drop_init2. Qed.
Lemma sim_drop_flds G fs is_ : sim (Rw G) (drop_flds fs is_).
Proof. apply sim_drop_init2. Qed.
#[export] Hint Resolve sim_drop_init sim_drop_flds : sims.
Lemma sim_drop_flds_rev G fs : forall is_, sim (Rw G) (drop_flds_rev fs is_).
Proof. induction fs; intros; cbn [drop_flds_rev]; sim. Qed.
#[export] Hint Resolve sim_drop_flds_rev : sims.
Lemma sim_fill_loop G f p pre g i : sim (Rw G) (fill_loop f p pre g i).
Proof. unfold fill_loop. sim. Qed.
#[export] Hint Resolve sim_fill_loop : sims.
Lemma sim_ainit_run G f ai p n : sim (Rw G) (ainit_run f ai p n).
Proof. unfold ainit_run. sim. Qed.
#[export] Hint Resolve sim_ainit_run : sims.
Lemma sim_init_array G f ai a off n : sim (Rw G) (init_array f ai a off n).
Proof. unfold init_array. sim. Qed.
Lemma sim_unwind_rec G kd temps r is_ : sim (Rw G) (unwind_rec kd temps r is_).
Proof. unfold unwind_rec, drop_temps. sim. Qed.
#[export] Hint Resolve sim_init_array sim_unwind_rec : sims.
Lemma sim_initialize2 G :
  (forall t i dst l, sim (Rw G) (initialize t i dst l)) /\ (forall fs kd is_ es dst temps, sim (Rw G) (init_fields kd fs is_ es dst temps)).
Proof. apply vty_flds_ind; intros; cbn [initialize init_fields]; sim. Qed.
Lemma sim_initialize G t i dst l : sim (Rw G) (initialize t i dst l).
Proof. apply sim_initialize2. Qed.
Lemma sim_read_array G f a off n : sim (Rw G) (read_array f a off n).
Proof. unfold read_array. sim. Qed.
#[export] Hint Resolve sim_initialize sim_read_array : sims.
Lemma sim_view2 G :
  (forall t a, sim (Rw G) (view t a)) /\ (forall fs a es, sim (Rw G) (view_flds fs a es)).
Proof. apply vty_flds_ind; intros; cbn [view view_flds]; sim. Qed.
Lemma sim_view G t a : sim (Rw G) (view t a).
Proof. apply sim_view2. Qed.
Lemma sim_elem_mut G f a off n i : sim (Rw G) (elem_mut f a off n i).
Proof. unfold elem_mut. sim. Qed.
#[export] Hint Resolve sim_view sim_elem_mut : sims.
Lemma sim_locate2 G :
  (forall t a p, sim (Rw G) (locate t a p)) /\ (forall fs a es j p, sim (Rw G) (locate_fld fs a es j p)).
Proof. apply vty_flds_ind; intros; cbn [locate locate_fld]; sim. Qed.
Lemma sim_locate G t a p : sim (Rw G) (locate t a p).
Proof. apply sim_locate2. Qed.
Lemma sim_ref_slice G f a off n : sim (Rw G) (ref_slice f a off n).
Proof. unfold ref_slice. sim. Qed.
#[export] Hint Resolve sim_locate sim_ref_slice : sims.
Lemma sim_field_slice G fs : forall a es j, sim (Rw G) (field_slice fs a es j).
Proof. induction fs; intros; cbn [field_slice]; sim. Qed.
#[export] Hint Resolve sim_field_slice : sims.
Lemma sim_array_slice G t a j : sim (Rw G) (array_slice t a j).
Proof. unfold array_slice. sim. Qed.
Lemma sim_sub_slice G s lo k : sim (Rw G) (sub_slice s lo k).
Proof. unfold sub_slice. sim. Qed.
Lemma sim_assign G t a p new : sim (Rw G) (assign t a p new).
Proof. unfold assign. sim. Qed.
Lemma sim_vclone2 G :
  (forall t a, sim (Rw G) (vclone t a)) /\ (forall fs a es, sim (Rw G) (vclone_flds fs a es)).
Proof. apply vty_flds_ind; intros; cbn [vclone vclone_flds]; sim. Qed.
Lemma sim_vclone G t a : sim (Rw G) (vclone t a).
Proof. apply sim_vclone2. Qed.
Lemma sim_set_ctrls G a dp cf : forall news, sim (Rw G) (set_ctrls a dp cf news).
Proof. induction cf; intros; cbn [set_ctrls]; sim. Qed.
#[export] Hint Resolve sim_array_slice sim_sub_slice sim_assign sim_vclone sim_set_ctrls : sims.
Lemma sim_try_set G fs a dp news : sim (Rw G) (try_set_layout_controllers fs a dp news).
Proof. unfold try_set_layout_controllers. sim. Qed.
Lemma sim_vbox_new G t i : sim (Rw G) (vbox_new t i).
Proof. unfold vbox_new. sim. Qed.
Lemma sim_owned_new_in G t i : sim (Rw G) (owned_new_in t i).
Proof. unfold owned_new_in. sim. Qed.
#[export] Hint Resolve sim_try_set sim_vbox_new sim_owned_new_in : sims.
(** sequences *)
Lemma sim_lft {A} G (m : M world A) : sim (Rw G) m -> sim (@Rx sq G) (lft m).
Proof.
  intros Hm [w s] [wv sv] [H E]. cbn [fst snd] in *. subst sv. unfold lft. specialize (Hm w wv H). destruct (m wv) as [a wv'|wv'|u]; [| |destruct Hm as [Hm|[Hm|Hm]]; [tauto|tauto|rewrite Hm; auto]];
    destruct Hm as (w' & -> & H'); eexists; (split; [reflexivity|]); (split; [exact H'|reflexivity]).
Qed.
Lemma sim_get G : sim (@Rx sq G) get_sq.
Proof. intros [w s] [wv sv] [H E]. cbn [fst snd get_sq] in *. subst sv. eexists. split; [reflexivity|]. split; [exact H|reflexivity]. Qed.
Lemma sim_set G s' : sim (@Rx sq G) (set_sq s').
Proof. intros [w s] [wv sv] [H E]. cbn [fst snd set_sq] in *. eexists. split; [reflexivity|]. split; [exact H|reflexivity]. Qed.
Lemma sim_lft_t {A} G (m : M world A) : sim (Rw G) m -> sim (@Rx tstate G) (lft_t m).
Proof.
  intros Hm [w s] [wv sv] [H E]. cbn [fst snd] in *. subst sv. unfold lft_t. specialize (Hm w wv H). destruct (m wv) as [a wv'|wv'|u]; [| |destruct Hm as [Hm|[Hm|Hm]]; [tauto|tauto|rewrite Hm; auto]];
    destruct Hm as (w' & -> & H'); eexists; (split; [reflexivity|]); (split; [exact H'|reflexivity]).
Qed.
#[export] Hint Resolve sim_get sim_set : sims.
Ltac sim ::=
  repeat first
    [ assumption
    | solve [eauto 2 with sims]
    | apply sim_bind; [|intros ?]
    | apply sim_unwind
    | apply sim_each; intros ?
    | apply sim_mapM; intros ?
    | apply sim_lft
    | apply sim_lft_t
    | match goal with
      | |- sim _ (let '(_, _) := ?x in _) => destruct x as [? ?]
      | |- sim _ (match ?x with _ => _ end) => destruct x as [] eqn:?
      | |- sim _ (let _ := _ in _) => cbv zeta
      end ].
Lemma sim_bitmask G size align : sim (Rw G) (add_bitmask_to_layout size align).
Proof. unfold add_bitmask_to_layout, add_bitmask_lim. sim. Qed.
#[export] Hint Resolve sim_bitmask : sims.
Lemma sim_alloc_storage G chk size align : sim (Rw G) (alloc_storage chk size align).
Proof. unfold alloc_storage. sim. Qed.
Lemma sim_grow_storage G chk ptr os align ns : sim (Rw G) (grow_storage chk ptr os align ns).
Proof. unfold grow_storage. sim. Qed.
Lemma sim_mark G chk ptr cap o align : sim (Rw G) (mark_offset_valid chk ptr cap o align).
Proof. unfold mark_offset_valid. sim. Qed.
Lemma sim_clear G chk ptr cap occ align : sim (Rw G) (clear_bitmasks chk ptr cap occ align).
Proof. unfold clear_bitmasks. sim. Qed.
Lemma sim_extended G chk size align : sim (Rw G) (extended_size chk size align).
Proof. unfold extended_size. sim. Qed.
#[export] Hint Resolve sim_alloc_storage sim_grow_storage sim_mark sim_clear sim_extended : sims.
Lemma sim_try_realloc G chk ptr cap mn align : sim (Rw G) (try_realloc chk ptr cap mn align).
Proof. unfold try_realloc. sim. Qed.
#[export] Hint Resolve sim_try_realloc : sims.
Lemma sim_must_realloc G chk ptr cap mn align : sim (Rw G) (must_realloc chk ptr cap mn align).
Proof. unfold must_realloc. sim. Qed.
#[export] Hint Resolve sim_must_realloc : sims.
Lemma sim_push G t chk i : sim (@Rx sq G) (seq_push t chk i).
Proof. unfold seq_push. sim. Qed.
Lemma sim_next G t it : sim (Rw G) (iter_next t it).
Proof. unfold iter_next. sim. Qed.
#[export] Hint Resolve sim_push sim_next : sims.
Lemma sim_collect G t fuel : forall it, sim (Rw G) (iter_collect t fuel it).
Proof. induction fuel; intros; cbn [iter_collect]; sim. Qed.
#[export] Hint Resolve sim_collect : sims.
Lemma sim_contents G t s : sim (Rw G) (seq_contents t s).
Proof. unfold seq_contents. sim. Qed.
Lemma sim_offset_of G t s e : sim (Rw G) (offset_of t s e).
Proof. unfold offset_of. sim. Qed.
Lemma sim_from_unchecked G t s o : sim (Rw G) (from_offset_unchecked t s o).
Proof. unfold from_offset_unchecked. sim. Qed.
Lemma sim_offset_valid G t s o : sim (Rw G) (is_offset_valid t s o).
Proof. unfold is_offset_valid. sim. Qed.
#[export] Hint Resolve sim_contents sim_offset_of sim_from_unchecked sim_offset_valid : sims.
Lemma sim_from_offset G t s o : sim (Rw G) (from_offset t s o).
Proof. unfold from_offset. sim. Qed.
Lemma sim_take G t chk : sim (@Rx sq G) (take_elems t chk).
Proof. unfold take_elems. sim. Qed.
Lemma sim_drop_loop G t n : forall it, sim (Rw G) (drop_elems_loop t n it).
Proof. induction n; intros; cbn [drop_elems_loop]; sim. Qed.
#[export] Hint Resolve sim_from_offset sim_take sim_drop_loop : sims.
Lemma sim_elems_drop G t it : sim (Rw G) (owned_elems_drop t it).
Proof. unfold owned_elems_drop. sim. Qed.
#[export] Hint Resolve sim_elems_drop : sims.
Lemma sim_seq_drop G t chk : sim (@Rx sq G) (seq_drop t chk).
Proof. unfold seq_drop. sim. Qed.
#[export] Hint Resolve sim_seq_drop : sims.
(** programs *)
Lemma sim_subobject2 G :
  (forall t a p, sim (Rw G) (subobject t a p)) /\ (forall fs a es j p, sim (Rw G) (subobject_fld fs a es j p)).
Proof. apply vty_flds_ind; intros; cbn [subobject subobject_fld]; sim. Qed.
Lemma sim_subobject G t a p : sim (Rw G) (subobject t a p).
Proof. apply sim_subobject2. Qed.
#[export] Hint Resolve sim_subobject : sims.
Lemma sim_resolve G sl pl : sim (Rw G) (resolve sl pl).
Proof. unfold resolve. sim. Qed.
#[export] Hint Resolve sim_resolve : sims.
Lemma sim_slice_init G sl cl pl j lo k : sim (Rw G) (slice_init sl cl pl j lo k).
Proof. unfold slice_init. sim. Qed.
#[export] Hint Resolve sim_slice_init : sims.
Lemma sim_eval G sl : forall p, sim (Rw G) (eval sl p).
Proof.
  fix IH 1. intros [v|v|n ai|ai|n cl pl j lo k|cl pl j lo k|h|pl|pl|p|ps]; cbn [eval]; sim.
  induction ps as [|p ps IHps]; [apply sim_ret|]. apply sim_bind; [apply IH|]. intros i. apply sim_bind; [exact IHps|]. intros; apply sim_ret.
Qed.
#[export] Hint Resolve sim_eval : sims.
Lemma sim_take_cmd G t c : sim (@Rx tstate G) (take_cmd t c).
Proof.
  assert (Hh : forall j, sim (@Rx tstate G) (held_at j)).
  { intros j [w s] [wv sv] [H E]. cbn [fst snd held_at] in *. subst sv. destruct (nth_error (snd s) j) as [[a|]|]; [|auto|auto].
    eexists. split; [reflexivity|]. split; [exact H|reflexivity]. }
  assert (Hl : forall j, sim (@Rx tstate G) (let_go j)).
  { intros j [w [it l]] [wv [itv lv]] [H E]. cbn [fst snd let_go] in *. injection E as <- <-. eexists. split; [reflexivity|]. split; [exact H|reflexivity]. }
  destruct c; cbn [take_cmd]; sim.
  - intros [w [it l]] [wv [itv lv]] [H E]. cbn [fst snd] in *. injection E as <- <-. pose proof (sim_next G t it w wv H) as Hn.
    destruct (iter_next t it wv) as [[[a|] it'] wv'|wv'|u]; [| | |destruct Hn as [Hn|[Hn|Hn]]; [tauto|tauto|rewrite Hn; auto]]; destruct Hn as (w' & -> & H'); eexists; (split; [reflexivity|]); (split; [exact H'|reflexivity]).
  - intros [w [it l]] [wv [itv lv]] [H E]. cbn [fst snd] in *. injection E as <- <-. eexists; (split; [reflexivity|]); (split; [exact H|reflexivity]).
Qed.
#[export] Hint Resolve sim_take_cmd : sims.
Lemma sim_take_end G t keep s : sim (Rw G) (take_end t keep s).
Proof. unfold take_end. sim. Qed.
#[export] Hint Resolve sim_take_end : sims.
Lemma sim_take_run G t it cmds keep : sim (Rw G) (take_run t it cmds keep).
Proof.
  intros w wv H. unfold take_run.
  assert (Hm : sim (@Rx tstate G) (mapM (take_cmd t) cmds)) by sim.
  specialize (Hm (w, (it, [])) (wv, (it, [])) (conj H eq_refl)).
  destruct (mapM (take_cmd t) cmds (wv, (it, []))) as [outs [wv' s]|[wv' s]|u]; [| |destruct Hm as [Hm|[Hm|Hm]]; [tauto|tauto|rewrite Hm; auto]].
  - destruct Hm as ([w' s'] & -> & H' & E). cbn [fst snd] in *. subst s'.
    assert (Hs : sim (Rw G) (take_end t keep s ;;; ret outs)) by sim. exact (Hs w' wv' H').
  - destruct Hm as ([w' s'] & -> & H' & E). cbn [fst snd] in *. subst s'.
    assert (Hs : sim (Rw G) (take_end t false s ;;; (@panic world (list out)))) by sim. exact (Hs w' wv' H').
Qed.
Lemma sim_mem_swap G a b n al : sim (Rw G) (mem_swap a b n al).
Proof. unfold mem_swap. sim. Qed.
#[export] Hint Resolve sim_take_run sim_mem_swap : sims.
Lemma sim_swap_leaves G t a q t' a' q' : sim (Rw G) (swap_leaves t a q t' a' q').
Proof. unfold swap_leaves. sim. Qed.
#[export] Hint Resolve sim_swap_leaves : sims.
Definition res_sim {X A} (G : division) (r rv : res (world * X) A) : Prop :=
  match rv with
  | Ok a (wv, x) => exists w, r = Ok a (w, x) /\ Rw G w wv
  | Panic (wv, x) => exists w, r = Panic (w, x) /\ Rw G w wv
  | UB u => u = UOob \/ u = UDealloc \/ r = UB u
  end.
Lemma sim_call {A} G (m : M world A) k kp w wv : sim (Rw G) m -> Rw G w wv -> res_sim G (call m k kp w) (call m k kp wv).
Proof.
  intros Hm H. unfold call. specialize (Hm w wv H). destruct (m wv) as [a wv'|wv'|u]; [| |destruct Hm as [Hm|[Hm|Hm]]; [left; exact Hm|right; left; exact Hm|rewrite Hm; cbn; auto]]; destruct Hm as (w' & -> & H'); cbn [res_sim]; eauto.
Qed.
Lemma sim_call_seq {A} G (m : SM A) s k kp w wv : sim (@Rx sq G) m -> Rw G w wv -> res_sim G (call_seq m s k kp w) (call_seq m s k kp wv).
Proof.
  intros Hm H. unfold call_seq. specialize (Hm (w, s) (wv, s) (conj H eq_refl)).
  destruct (m (wv, s)) as [a [wv' s1]|[wv' s1]|u]; [| |destruct Hm as [Hm|[Hm|Hm]]; [left; exact Hm|right; left; exact Hm|rewrite Hm; cbn; auto]]; destruct Hm as ([w' s'] & -> & H' & E); cbn [fst snd] in *; subst s1; cbn [res_sim]; eauto.
Qed.
(** Whatever an operation does in the divided world it does in the real one. *)
Lemma sim_exec G o w wv sl : Rw G w wv -> res_sim G (exec o (w, sl)) (exec o (wv, sl)).
Proof.
  intros H. destruct o; cbn [exec];
    repeat match goal with |- res_sim _ (match ?x with _ => _ end) (match ?x with _ => _ end) => destruct x as [] end;
    try (right; right; reflexivity); try (eexists; split; [reflexivity|exact H]);
    try (apply sim_call; [|exact H]; sim); try (apply sim_call_seq; [|exact H]; sim).
Qed.
