(** PropsAlias.v - C64: the references the crate hands out obey Rust's aliasing rules (Tree Borrows). *)
From Verif Require Import Examples LayoutFacts.
From Verif Require Import AliasSpec AliasProofs.

(** In every state a rule-following client can reach, everything it may do next - calling into the crate
    included - is free of undefined behaviour. *)
Theorem C64_no_alias_ub U st st' o :
  alias_start st -> plays false U st st' -> fair (snd st') o -> exists st'', alias_step false U o st' = Some st''.
Proof.
  intros H P F. destruct (step_inv U st' o (plays_inv U st st' H P) F) as (st'' & E & _). eauto.
Qed.
(** Two references in use at the same time, one of them mutable, share no byte, unless one was made from the other. *)
Theorem C64_mutable_is_unique U st st' i j r q : alias_start st -> plays false U st st' ->
  is_live (snd st') i r -> is_live (snd st') j q -> i <> j -> r_mut r = true ->
  derived (snd st') i j \/ derived (snd st') j i \/ refs_apart r q.
Proof.
  intros H P [f Hi] [g Hj] Hn Hm. destruct (ai_pair _ _ (plays_inv U st st' H P) i j r q f g Hn Hi Hj) as [X|[X|[X|[X _]]]].
  - left. now apply anc_derived.
  - right. left. now apply anc_derived.
  - auto.
  - congruence.
Qed.
(** refs() gives a reference to every part of a record. *)
Theorem C64_refs_all U st st' st'' i r kd hs ha fs l : alias_start st -> plays false U st st' ->
  is_live (snd st') i r -> r_obj r = OObj (TRec kd hs ha fs) l -> alias_step false U (ARefs i) st' = Some st'' ->
  forall p, In p (parts (TRec kd hs ha fs) l (r_addr r)) -> exists j q, nth_error (snd st'') j = Some (mkLn q (Some i) true) /\ covers q p.
Proof.
  intros H P [f Hi] Ho E p Hp. destruct (ai_ref _ _ (plays_inv U st st' H P) _ _ _ Hi) as (_ & Hs & _). unfold sound_ref in Hs. rewrite Ho in Hs.
  destruct Hs as ((Hh & Hfs & _) & (v & Hv & ->) & _). destruct v; try contradiction. cbn [vok vshape sp_lay parts] in *.
  destruct st' as [b ls]; cbn [fst snd] in *. cbn [alias_step] in E. rewrite Hi in E. cbn [ln_ref] in E. destruct r as [g o a n m]; cbn in Ho, Hp. subst o. cbn [al_refs] in E.
  destruct (bbind _ _ b) as [[rs b']|] eqn:Eb; [|discriminate]. injection E as <-. cbn [snd]. bsome Eb d b1 E1. bsome Eb u b2 E2.
  destruct (refs_cover false fs Hfs vs _ hs a g b2 rs b' Hv Eb p Hp) as (q & Hq & Hc). apply In_nth_error in Hq. destruct Hq as [k Hk].
  exists (length ls + k)%nat, q. split; [|exact Hc]. rewrite nth_error_app2 by lia. replace (length ls + k - length ls)%nat with k by lia. rewrite nth_error_map, Hk. reflexivity.
Qed.
(** muts() gives a reference to every part of a record; a mutable one, except to the layout controllers, whose
    bytes it gives only shared references to. *)
Theorem C64_muts_all U st st' st'' i r kd hs ha fs l : alias_start st -> plays false U st st' -> fair (snd st') (AMuts i) ->
  is_live (snd st') i r -> r_obj r = OObj (TRec kd hs ha fs) l -> alias_step false U (AMuts i) st' = Some st'' ->
  (forall p, In p (parts (TRec kd hs ha fs) l (r_addr r)) -> exists j q, nth_error (snd st'') j = Some (mkLn q (Some i) true) /\ covers q p /\
     (r_mut q = true \/ exists off f, In (off, f) (ctrl_fields fs) /\ p = (r_addr r + off, f_size f, f_align f))) /\
  (forall off f x j q, In (off, f) (ctrl_fields fs) -> r_addr r + off <= x < r_addr r + off + f_size f ->
     nth_error (snd st'') j = Some (mkLn q (Some i) true) -> in_ref x q -> r_mut q = false).
Proof.
  intros H P HF [f Hi] Ho E. pose proof (plays_inv U st st' H P) as I. destruct (ai_ref _ _ I _ _ _ Hi) as (_ & Hs & _). unfold sound_ref in Hs. rewrite Ho in Hs.
  assert (Hm : r_mut r = true /\ not_borrowed (snd st') i).
  { inversion HF as [| | | | |? r' ? ? [f' Hi'] Hm Hn| | | | | | | |]; subst. rewrite Hi in Hi'. injection Hi' as <- _. auto. }
  destruct Hm as [Hm Hn].
  pose proof (live_ready _ _ _ _ _ I Hi) as HR. pose proof (live_wr _ _ _ _ _ I Hi Hm) as HW.
  destruct Hs as (Hwf & (v & Hv & ->) & Hsz). rewrite (lay_size_sp _ v Hv) in Hsz. destruct v; try contradiction.
  destruct st' as [b ls]; cbn [fst snd] in *. cbn [alias_step] in E. rewrite Hi in E. cbn [ln_ref] in E. destruct r as [g o a n m]; cbn [r_obj r_size] in Ho, Hsz. subst o n. cbn [r_tag r_addr r_size] in *.
  destruct (al_muts_ok g _ U _ _ a g b Hwf Hv HR HW) as (rs & b' & Em & _ & _ & Hd). rewrite Em in E. injection E as <-. cbn [snd].
  destruct Hwf as (Hh & Hfs & _). cbn [vok vshape sp_lay parts al_muts] in *.
  bsome Em d b1 E1. bsome Em u b2 E2. bsome Em e b3 E3. split.
  - intros p Hp. destruct (muts_cover false U fs Hfs vs _ hs a e b3 rs b' Hv Em p Hp) as (q & Hq & Hc). apply In_nth_error in Hq. destruct Hq as [k Hk].
    exists (length ls + k)%nat, q. split; [|exact Hc]. rewrite nth_error_app2 by lia. replace (length ls + k - length ls)%nat with k by lia. rewrite nth_error_map, Hk. reflexivity.
  - intros off f0 x j q Hc Hx Hj Hq.
    assert (Hin : In q rs).
    { destruct (Nat.lt_ge_cases j (length ls)) as [L|L].
      - rewrite nth_error_app1 in Hj by exact L. destruct (Hn _ _ Hj).
      - rewrite nth_error_app2 in Hj by exact L. apply nth_error_In in Hj. apply in_map_iff in Hj. destruct Hj as (q' & Eq & Hq'). injection Eq as ->. exact Hq'. }
    destruct (muts_ctrl false U fs vs _ hs a e b3 rs b' Hv Em off f0 Hc) as (q0 & Hq0 & M0 & A0 & S0).
    destruct (ForallOrdPairs_In Hd q q0 Hin Hq0) as [X|[X|X]].
    + congruence.
    + destruct (X x Hq). unfold in_ref. lia.
    + destruct (X x); [unfold in_ref; lia|exact Hq].
Qed.
(** Were a reference allowed to access no more than size_of its type says (Stacked Borrows), Deref of an Array through
    a shared reference would be undefined exactly if the array has a tail. *)
Theorem C64_needs_wide_references U f k xs a : fty_ok f -> vok (TArray f k) (VArr xs) ->
  let t := TArray f k in
  let l := sp_lay t (vshape (VArr xs)) in
  alias_run true U [AShare 0; ARefs 1] (mkBr 0 [([], fun _ => Active)], [mkLn (mkAR [] (OObj t l) a (lay_size l) true) None true]) = None <-> 0 < len xs * f_size f.
Proof. intros Hf Hv t l. subst t l. rewrite (lay_size_sp _ _ Hv). now apply narrow_array. Qed.

(** ** Examples *)
Definition live_b (ls : list loan) (i : nat) : option aref := match nth_error ls i with Some (mkLn r _ true) => Some r | _ => None end.
Definition none_b (ls : list loan) (i : nat) : bool :=
  forallb (fun ln => negb (ln_live ln && match ln_from ln with Some j => Nat.eqb j i | None => false end)) ls.
Definition shared_b (ls : list loan) (i : nat) : bool :=
  forallb (fun ln => negb (ln_live ln && match ln_from ln with Some j => Nat.eqb j i | None => false end) || negb (r_mut (ln_ref ln))) ls.
Definition elems_b (o : robj) : bool := match o with OElems _ _ _ => true | _ => false end.
Definition fair_b (ls : list loan) (o : aop) : bool :=
  let on i (c : aref -> bool) := match live_b ls i with Some r => c r | None => false end in
  match o with
  | AUse i Rd x => on i (fun r => shared_b ls i && (r_addr r <=? x) && (x <? r_addr r + r_size r))
  | AUse i Wr x => on i (fun r => r_mut r && none_b ls i && (r_addr r <=? x) && (x <? r_addr r + r_size r))
  | AShare i => on i (fun r => shared_b ls i && negb (elems_b (r_obj r)))
  | AReborrow i => on i (fun r => r_mut r && none_b ls i && negb (elems_b (r_obj r)))
  | ARefs i => on i (fun r => shared_b ls i && match r_obj r with OObj _ _ => true | _ => false end)
  | AMuts i => on i (fun r => r_mut r && none_b ls i && match r_obj r with OObj _ _ => true | _ => false end)
  | AIterate i EIter => on i (fun r => shared_b ls i && match r_obj r with OElems ESeq _ _ => true | _ => false end)
  | AIterate i ESeq => false
  | AIterate i _ => on i (fun r => r_mut r && none_b ls i && match r_obj r with OElems ESeq _ _ => true | _ => false end)
  | ANext i => on i (fun r => none_b ls i && match r_obj r with OElems ESeq _ _ => false | OElems _ _ (_ :: _) => true | _ => false end)
  | AEnd i => on i (fun r => none_b ls i)
  | ACopy i => on i (fun r => shared_b ls i && match r_obj r with OObj _ _ => true | _ => false end)
  | ASet i => on i (fun r => r_mut r && none_b ls i && match r_obj r with OObj (TRec KStruct _ _ _) _ => true | _ => false end)
  | ADrop i _ | AInit i => on i (fun r => r_mut r && none_b ls i && match r_obj r with OObj _ _ => true | _ => false end)
  end.
Lemma live_b_ok ls i r : live_b ls i = Some r -> is_live ls i r.
Proof. unfold live_b, is_live. destruct (nth_error ls i) as [[q f []]|]; try discriminate. intros E; injection E as ->. eauto. Qed.
Lemma none_b_ok ls i : none_b ls i = true -> not_borrowed ls i.
Proof.
  unfold none_b, not_borrowed. rewrite forallb_forall. intros H j r Hj. specialize (H _ (nth_error_In _ _ Hj)). cbn in H. rewrite Nat.eqb_refl in H. discriminate.
Qed.
Lemma shared_b_ok ls i : shared_b ls i = true -> shared_only ls i.
Proof.
  unfold shared_b, shared_only. rewrite forallb_forall. intros H j r Hj. specialize (H _ (nth_error_In _ _ Hj)). cbn in H. rewrite Nat.eqb_refl in H. cbn in H. destruct (r_mut r); [discriminate|reflexivity].
Qed.
Lemma fair_b_ok ls o : fair_b ls o = true -> fair ls o.
Proof.
  destruct o as [i [] x|i|i|i|i|i []|i|i|i|i|i d|i]; cbn [fair_b]; try discriminate; destruct (live_b ls i) as [r|] eqn:E; try discriminate; apply live_b_ok in E; intros H;
    repeat match goal with
    | H : _ && _ = true |- _ => apply andb_true_iff in H; destruct H
    | H : shared_b _ _ = true |- _ => apply shared_b_ok in H
    | H : none_b _ _ = true |- _ => apply none_b_ok in H
    | H : (_ <=? _) = true |- _ => apply N.leb_le in H
    | H : (_ <? _) = true |- _ => apply N.ltb_lt in H
    end.
  all: try (destruct (r_obj r) as [u|t l|k t es] eqn:Er; try discriminate).
  all: try (destruct k; try discriminate).
  all: try (destruct es; try discriminate).
  all: try (destruct t as [| | |[]]; try discriminate).
  all: try (econstructor; eauto; try (unfold in_ref; split; assumption); try congruence; intros; congruence).
Qed.
Fixpoint play_b (U : fty -> bool) (os : list aop) (st : astate) : bool :=
  match os with
  | [] => true
  | o :: r => fair_b (snd st) o && match alias_step false U o st with Some st' => play_b U r st' | None => false end
  end.
Lemma play_b_ok U os : forall st0 st, plays false U st0 st -> play_b U os st = true -> exists st', alias_run false U os st = Some st' /\ plays false U st0 st'.
Proof.
  induction os as [|o os IH]; intros st0 st P H; cbn [play_b alias_run] in *; [eauto|]. apply andb_true_iff in H. destruct H as [H1 H2].
  destruct (alias_step false U o st) as [st1|] eqn:E; [|discriminate]. apply (IH st0 st1); [|exact H2]. eapply Y_step; eauto. now apply fair_b_ok.
Qed.
(** A VBox of a struct with a controller, a Str, an array and a nested tuple, and a Seq of two tuples. Only f_box is not Unpin. *)
Definition U_ex (f : fty) : bool := negb (f_drop f).
Definition v_t1 : vval := VRec [VArr [h2; h3]; VFix (by_ [1;2;3;4])].
Definition v_t2 : vval := VRec [VArr []; VFix (by_ [1;2;3;4])].
Definition l_ex : lay := sp_lay t_ex (vshape v_ex).
Definition ls_ex : list lay := [sp_lay t_tup (vshape v_t1); sp_lay t_tup (vshape v_t2)].
Definition al_ex : astate :=
  (mkBr 0 [([], fun _ => Active)],
   [mkLn (mkAR [] (OObj t_ex l_ex) 4096 (lay_size l_ex) true) None true;
    mkLn (mkAR [] (OElems ESeq t_tup ls_ex) 8192 (elems_size t_tup ls_ex) true) None true]).
Lemma al_ex_start : alias_start al_ex.
Proof.
  split; [reflexivity|]. split.
  - constructor; [|constructor; [|constructor]]; (split; [reflexivity|split; [reflexivity|split; [reflexivity|split; [reflexivity|]]]]).
    + split; [apply t_ex_wf|]. split; [exists v_ex; split; [apply v_ex_ok|reflexivity]|reflexivity].
    + split; [apply t_tup_wf|]. split; [|reflexivity]. constructor; [exists v_t1|constructor; [exists v_t2|constructor]]; (split; [cbn; unfold elems_ok; conc|reflexivity]).
  - assert (A : 4096 + lay_size l_ex <= 8192) by (vm_compute; discriminate).
    intros i j l m Hi Hj Hn x. destruct i as [|[|[|]]], j as [|[|[|]]]; cbn [al_ex snd nth_error] in Hi, Hj; try discriminate; try congruence; injection Hi as <-; injection Hj as <-; unfold in_ref; cbn [ln_ref r_addr r_size]; intros X Y; change (4096 + lay_size l_ex <= 8192) in A; [change (4096 <= x < 4096 + lay_size l_ex) in X; destruct Y|change (4096 <= x < 4096 + lay_size l_ex) in Y; destruct X]; lia.
Qed.
(** muts() of the box and of the tuple inside, writing through several of the references in turn; refs() of the box while a
    shared reference to it is in use; iterating mutably, keeping both elements; copying, setting controllers, dropping. *)
Definition os_ex : list aop :=
  [AReborrow 0; AMuts 2; AUse 4 Wr 4096; AUse 6 Wr 4118; AUse 3 Rd 4104; AMuts 7; AUse 8 Wr 4136; AUse 6 Rd 4117; AUse 4 Wr 4097; AUse 8 Rd 4137;
   AEnd 8; AEnd 9; AEnd 3; AEnd 4; AEnd 5; AEnd 6; AEnd 7; AUse 2 Wr 4100; ASet 2; AEnd 2;
   AShare 0; ARefs 0; AUse 10 Rd 4120; AUse 12 Rd 4096; ACopy 10; ACopy 0; AEnd 10; AEnd 11; AEnd 12; AEnd 13; AEnd 14; AEnd 15;
   AIterate 1 EIterMut; ANext 16; ANext 16; AUse 17 Wr 8192; AUse 18 Wr 8224; AUse 17 Wr 8193; AEnd 17; AEnd 18; AEnd 16;
   AIterate 1 EIter; ANext 19; AUse 20 Rd 8192; ANext 19; ACopy 20; AEnd 20; AEnd 21; AEnd 19;
   AIterate 1 ETake; ANext 22; ADrop 23 false; ANext 22; AEnd 22; ADrop 24 false; ADrop 0 true].
Example C64_meets : exists st', alias_run false U_ex os_ex al_ex = Some st' /\ plays false U_ex al_ex st'.
Proof. apply play_b_ok; [apply Y_start|]. vm_compute. reflexivity. Qed.
(** The rules matter: writing through the box, or making a mutable reference to it and writing through that, while a reference from muts() is
    in use makes the latter unusable; writing through a reference from refs() is undefined. *)
Definition runs (os : list aop) : bool := match alias_run false U_ex os al_ex with Some _ => true | None => false end.
Example C64_meets_not : runs [AMuts 0; AUse 5 Wr 4117] = true /\ runs [AMuts 0; AUse 0 Wr 4117; AUse 5 Rd 4117] = false /\
  runs [AMuts 0; AMuts 0; AUse 10 Wr 4117; AUse 5 Wr 4117] = false /\ runs [ARefs 0; AUse 5 Wr 4117] = false.
Proof. repeat split; vm_compute; reflexivity. Qed.
(** Deref of an empty and of a non-empty Array with narrow references. *)
Example C64_meets_narrow : vok (TArray f_u16 LU8) (VArr [by_ [1;0]; by_ [2;0]]) /\ vok (TArray f_u16 LU8) (VArr []).
Proof. split; cbn; unfold elems_ok; conc. Qed.
