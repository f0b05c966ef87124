(** Examples.v - concrete types, initializers and worlds, used next to the theorems to show that
    their hypotheses can be met. Nothing in the proofs depends on this file. *)
From Verif Require Export LayoutFacts.

(** u16, u32; a handle type with a destructor and a clone (e.g. Box<u32>, Rc<..>); a type whose clone
    panics. *)
Definition f_u16 : fty := mkF 2 2 false (fun v => Some v).
Definition f_u32 : fty := mkF 4 4 false (fun v => Some v).
Definition f_box : fty := mkF 8 8 true (fun v => Some v).
Definition f_bomb : fty := mkF 8 8 true (fun _ => None).
Definition by_ (l : list N) : list cell := map By l.
Definition h1 : list cell := by_ [11;0;0;0;0;0;0;1].
Definition h2 : list cell := by_ [12;0;0;0;0;0;0;2].
Definition h3 : list cell := by_ [13;0;0;0;0;0;0;3].

(** A length expression: the first controller, a u8. *)
Definition lf_first (cs : list (list cell)) : N :=
  match cs with (By b :: _) :: _ => b mod 256 | _ => 0 end.
(** The sum of the first two controllers. *)
Definition lf_sum (cs : list (list cell)) : N :=
  match cs with (By b :: _) :: (By c :: _) :: _ => (b mod 256) + (c mod 256) | _ => 0 end.

(** The difference of the first two controllers, as usize: it overflows, and so panics (in a build with
    overflow checks), when the second one is larger. *)
Definition lf_diff (cs : list (list cell)) : N :=
  match cs with
  | (By b :: _) :: (By c :: _) :: _ => if c mod 256 <=? b mod 256 then b mod 256 - c mod 256 else W
  | _ => W
  end.
(** define_varlen! struct D { #[controls_layout] a: u8, #[controls_layout] c: u8, h: Box<_>,
      #[varlen_array] xs: [u16; usize::from(&a) - usize::from(&c)] } *)
Definition t_diff : vty :=
  TRec KStruct 16 8 (FLength 8 u8 (FLength 9 u8 (FNormal 0 f_box (FArr f_u16 lf_diff FNil)))).
Definition i_diff (a c : N) : init :=
  IRec [IFixed (by_ [a]); IFixed (by_ [c]); IFixed h1; IArrF (AFillSeq (fun i => Some (by_ [i; 0])))].

(** define_varlen! struct S { #[controls_layout] n: u8, h: Box<_>, #[varlen] s: Str<u8>,
      #[varlen_array] xs: [u16; *n as usize], #[varlen] t: Tup2<Array<Box<_>, u8>, FixedLen<u32>> } *)
Definition t_tup : vty := TRec KTuple 0 1 (FVar (TArray f_box LU8) (FVar (TFixed f_u32) FNil)).
Definition t_ex : vty :=
  TRec KStruct 16 8
    (FLength 8 u8 (FNormal 0 f_box (FVar (TStr LU8) (FArr f_u16 lf_first (FVar t_tup FNil))))).
Definition i_ex : init :=
  IRec [IFixed (by_ [2]); IFixed h1; INew (ISized 3 (ACopyFrom [by_ [97]; by_ [98]; by_ [99]]));
        IArrF (AFillSeq (fun i => Some (by_ [i; 0])));
        IRec [ISized 2 (AMoveFrom [h2; h3]); IFixed (by_ [1;2;3;4])]].
Definition v_ex : vval :=
  VRec [VFix (by_ [2]); VFix h1; VNew (VArr [by_ [97]; by_ [98]; by_ [99]]);
        VArr [by_ [0;0]; by_ [1;0]]; VRec [VArr [h2; h3]; VFix (by_ [1;2;3;4])]].

(** A world with no live allocation and an allocator that answers the k-th request with page k+1. *)
Definition w_start : world := mkW (fun _ => Un) [] (fun k _ _ => Some (4096 * (N.of_nat k + 1))) 0 [].
(** The same with an allocator that always fails. *)
Definition w_oom : world := mkW (fun _ => Un) [] (fun _ _ _ => None) 0 [].
(** A world with one live block of [n] bytes at 4096 (and nothing in it). *)
Definition w_room (n : N) : world :=
  mkW (fun _ => Un) [mkB 4096 n 8 true] (fun k _ _ => Some (4096 * (N.of_nat k + 2))) 0 [].

Ltac pow2_tac :=
  match goal with
  | |- pow2 1 => exists 0 | |- pow2 2 => exists 1 | |- pow2 4 => exists 2 | |- pow2 8 => exists 3
  end; split; [lia|reflexivity].
Ltac conc :=
  repeat match goal with
  | |- _ /\ _ => split
  | |- True => exact I
  | |- elems_ok _ _ => unfold elems_ok
  | |- length_is _ _ => unfold length_is
  | |- Forall _ _ => constructor
  | |- ForallOrdPairs _ _ => constructor
  | |- NoDup _ => constructor
  | |- pow2 _ => pow2_tac
  | |- _ = _ => vm_compute; reflexivity
  | |- _ < _ => vm_compute; reflexivity
  | |- _ <= _ => vm_compute; discriminate
  | |- _ <> _ => vm_compute; discriminate
  | |- ~ In _ [] => intros []
  end.

Lemma u8_ok : fty_ok u8. Proof. unfold fty_ok; cbn; conc. intros v v' H; injection H as <-; auto. Qed.
Lemma u16_ok : fty_ok f_u16. Proof. unfold fty_ok; cbn; conc. intros v v' H; injection H as <-; auto. Qed.
Lemma u32_ok : fty_ok f_u32. Proof. unfold fty_ok; cbn; conc. intros v v' H; injection H as <-; auto. Qed.
Lemma box_ok : fty_ok f_box. Proof. unfold fty_ok; cbn; conc. intros v v' H; injection H as <-; auto. Qed.
Lemma bomb_ok : fty_ok f_bomb. Proof. unfold fty_ok; cbn; conc. intros v v' H; discriminate. Qed.
Lemma lf_first_ok cs : lf_first cs < W.
Proof.
  unfold lf_first. destruct cs as [|[|[|b] l] r]; try reflexivity.
  pose proof (N.mod_lt b 256 ltac:(lia)). rewrite W_eq. lia.
Qed.
Lemma lf_sum_ok cs : lf_sum cs < W.
Proof.
  unfold lf_sum. destruct cs as [|[|[|b] l] [|[|[|c] l'] r]]; try reflexivity.
  pose proof (N.mod_lt b 256 ltac:(lia)). pose proof (N.mod_lt c 256 ltac:(lia)). rewrite W_eq. lia.
Qed.
Ltac in_tac := intros ? ? Hin; cbn in Hin;
  repeat (destruct Hin as [Hin|Hin]; [injection Hin as <- <-; conc|]); destruct Hin.
Lemma t_tup_wf : wf_ty t_tup.
Proof.
  cbn [wf_ty wf_flds t_tup]. unfold header_ok; cbn [head_fields].
  conc; try apply box_ok; try apply u32_ok; try discriminate; conc; try in_tac; exact I.
Qed.
Lemma t_ex_wf : wf_ty t_ex.
Proof.
  cbn [wf_ty wf_flds t_ex TStr]. unfold header_ok; cbn [head_fields].
  conc; try apply u8_ok; try apply u16_ok; try apply box_ok; try apply lf_first_ok; try apply t_tup_wf; conc.
  - in_tac.
  - right. vm_compute. discriminate.
Qed.
Lemma t_diff_wf : wf_ty t_diff.
Proof.
  cbn [wf_ty wf_flds t_diff]. unfold header_ok; cbn [head_fields].
  conc; try apply u8_ok; try apply u16_ok; try apply box_ok; conc.
  - in_tac.
  - left. vm_compute. discriminate.
  - right. vm_compute. discriminate.
  - right. vm_compute. discriminate.
Qed.
Lemma i_diff_usable w a c : usable w t_diff (i_diff a c).
Proof.
  split; [|split]; cbn; conc.
  intros i v H. injection H as <-. reflexivity.
Qed.
Lemma v_ex_ok : vok t_ex v_ex.
Proof. cbn. unfold elems_ok. conc. Qed.
Lemma i_ex_usable : usable w_start t_ex i_ex.
Proof.
  split; [|split]; cbn; conc.
  intros i v H. injection H as <-. reflexivity.
Qed.
Lemma w_start_ok : wf_blocks (w_blocks w_start).
Proof. split; [intros b []|constructor]. Qed.
Lemma w_room_ok n : 0 < n -> n < 2 ^ 40 -> wf_blocks (w_blocks (w_room n)).
Proof.
  intros H1 H2. split; [|repeat constructor]. intros b [<-|[]]. cbn [b_base b_size]. rewrite W_eq. change (2 ^ 40) with 1099511627776 in H2. lia.
Qed.

(** The world after VBox::new of the example, which holds the example value at 4096. *)
Definition w_ex : world := match vbox_new t_ex i_ex w_start with Ok _ w => w | _ => w_start end.
Lemma w_ex_new : vbox_new t_ex i_ex w_start = Ok 4096 w_ex.
Proof.
  assert (H : match vbox_new t_ex i_ex w_start with Ok p _ => p = 4096 | _ => False end) by (vm_compute; reflexivity).
  unfold w_ex. destruct (vbox_new t_ex i_ex w_start); [now subst|contradiction|contradiction].
Qed.
Lemma w_ex_blocks : w_blocks w_ex = [mkB 4096 52 8 true].
Proof. vm_compute. reflexivity. Qed.
Lemma w_ex_wf : wf_blocks (w_blocks w_ex).
Proof. rewrite w_ex_blocks. split; [|repeat constructor]. intros b [<-|[]]. cbn. conc. Qed.
Lemma v_ex_at : obj_at w_ex t_ex 4096 v_ex.
Proof.
  split; [apply v_ex_ok|]. split.
  - unfold place_ok. rewrite w_ex_blocks. conc. right. eexists. split; [left; reflexivity|]. conc.
  - cbn [repr repr_flds t_ex v_ex t_tup TStr]. conc.
Qed.
