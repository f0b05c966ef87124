(** PropsMacroEntry.v - C67: what define_varlen accepts, what it says about the rest, and when it panics. *)
From Coq Require Import Ascii PeanoNat.
From Verif Require Import MacroEntry PropsMacro.
Open Scope nat_scope.

(** ** Specification *)
(** Names are what the lexer makes of them: identifiers. *)
Definition lexed (S : spelling) : Prop := forall n, plain_ident (sp_text S n) = true.
(** The part of a generic parameter's name that is made from the name of a tail field consists of characters
    an identifier may contain. *)
Definition good_field_name (S : spelling) (f : fdecl) : Prop :=
  all_chars (fun c => is_letter c || is_digit c)%bool (sp_camel S (printed S (fd_name f))) = true.
Definition good_names (S : spelling) (fs : list fdecl) : Prop :=
  forall f, In f fs -> is_tail f = true -> good_field_name S f.
(** A visibility the macro supports. *)
Definition good_vis (v : visibility) : Prop := forall p, v <> VIn p.

(** [problem d m s]: something is wrong with declaration [d]; message [m] and place [s] say what. *)
Inductive problem : item -> string -> span -> Prop :=
| P_other : problem IOther msg_parse AtParse
| P_tuple : forall v n, problem (IDecl v n BTuple) msg_named AtName
| P_unit : forall v n, problem (IDecl v n BUnit) msg_named AtName
| P_enum : forall v n, problem (IDecl v n BEnum) msg_struct AtName
| P_union : forall v n, problem (IDecl v n BUnion) msg_struct AtName
| P_vis : forall p n fs, problem (IDecl (VIn p) n (BNamed fs)) msg_vis AtVis
| P_kinds : forall v n fs i f l a m b r, nth_error fs i = Some f -> fd_attrs f = l ++ a :: m ++ b :: r ->
    is_other a = false -> is_other b = false -> forallb is_other r = true ->
    problem (IDecl v n (BNamed fs)) msg_kinds (AtAttr i (length (l ++ a :: m)))
| P_field_vis : forall v n fs i f p, nth_error fs i = Some f -> fd_vis f = VIn p ->
    problem (IDecl v n (BNamed fs)) msg_vis (AtFieldVis i)
| P_array : forall v n fs i f, nth_error fs i = Some f -> In AVarlenArray (fd_attrs f) -> fd_array f = false ->
    problem (IDecl v n (BNamed fs)) msg_array (AtFieldType i).
(** Which part of the declaration a place is in: 0 is the head, 1 + i is field number i. *)
Definition part_of (s : span) : nat :=
  match s with AtParse | AtName | AtVis => 0 | AtAttr i _ | AtFieldVis i | AtFieldType i => 1 + i end.

(** ** Attributes *)
Fixpoint last_kind (k : nat) (l : list attr) : option nat :=
  match l with
  | [] => None
  | a :: r => match last_kind (1 + k) r with Some j => Some j | None => if is_other a then None else Some k end
  end.
Lemma last_none k l : last_kind k l = None <-> kinds_of l = [].
Proof.
  revert k. induction l as [|a l IH]; intros k; [split; reflexivity|]. cbn [last_kind kinds_of]. specialize (IH (1 + k)).
  destruct (last_kind (1 + k) l) as [j|]; destruct a; cbn [is_other]; split; intros H; try discriminate.
  - apply IH in H. discriminate.
  - now apply IH.
  - reflexivity.
Qed.
Lemma retain_e_spec l : forall ft err k,
  retain_e (ft, err) k l =
    ((match ft with FtNormal => hd FtNormal (kinds_of l) | _ => ft end,
      if match ft with FtNormal => Nat.ltb 1 (length (kinds_of l)) | _ => Nat.ltb 0 (length (kinds_of l)) end then last_kind k l else err),
     filter is_other l).
Proof.
  induction l as [|a l IH]; intros ft err k.
  - cbn. destruct ft; reflexivity.
  - pose proof (last_none (1 + k) l) as L.
    destruct a; cbn [retain_e kinds_of filter is_other last_kind]; try (rewrite IH; cbn [Nat.add]; destruct ft, (kinds_of l); cbn; try reflexivity; destruct (last_kind (S k) l); reflexivity);
      unfold set_type_e; cbn [fst snd]; destruct ft; cbn [ft_is_normal negb]; rewrite IH; cbn [hd length Nat.add] in *; destruct (kinds_of l) as [|x ks] eqn:E; cbn [length Nat.ltb Nat.leb];
      destruct (last_kind (S k) l) as [j|] eqn:F; try reflexivity; exfalso; (assert (X := proj2 L eq_refl); discriminate) || (assert (X := proj1 L eq_refl); discriminate).
Qed.
Lemma kinds_app l r : kinds_of (l ++ r) = kinds_of l ++ kinds_of r.
Proof. induction l as [|[] l IH]; cbn [app kinds_of]; rewrite ?IH; reflexivity. Qed.
Lemma kinds_none l : kinds_of l = [] <-> forallb is_other l = true.
Proof. induction l as [|[] l IH]; cbn; split; intros H; try discriminate; try reflexivity; now apply IH. Qed.
Lemma kinds_one a l : is_other a = false -> exists k, kinds_of (a :: l) = k :: kinds_of l.
Proof. destruct a; cbn; intros H; try discriminate; eauto. Qed.
Lemma last_split l : forall k j, last_kind k l = Some j ->
  exists p b r, l = p ++ b :: r /\ is_other b = false /\ forallb is_other r = true /\ j = k + length p.
Proof.
  induction l as [|a l IH]; intros k j H; [discriminate|]. cbn [last_kind] in H. destruct (last_kind (1 + k) l) as [i|] eqn:E.
  - injection H as <-. destruct (IH _ _ E) as (p & b & r & -> & Hb & Hr & ->). exists (a :: p), b, r. cbn. auto with arith.
  - destruct (is_other a) eqn:Ea; [discriminate|]. injection H as <-. exists [], a, l. apply last_none, kinds_none in E. cbn. auto.
Qed.
Lemma kind_split l : kinds_of l <> [] -> exists p a r, l = p ++ a :: r /\ is_other a = false.
Proof.
  induction l as [|a l IH]; intros H; [destruct (H eq_refl)|]. destruct (is_other a) eqn:E.
  - destruct IH as (p & b & r & -> & Hb); [destruct a; try discriminate; exact H|]. exists (a :: p), b, r. auto.
  - exists [], a, l. auto.
Qed.
Lemma two_kinds l : (2 <= length (kinds_of l)) ->
  exists p a m b r, l = p ++ a :: m ++ b :: r /\ is_other a = false /\ is_other b = false /\ forallb is_other r = true /\
    last_kind 0 l = Some (length (p ++ a :: m)).
Proof.
  intros H. destruct (last_kind 0 l) as [j|] eqn:E; [|apply last_none in E; rewrite E in H; cbn in H; lia].
  destruct (last_split _ _ _ E) as (q & b & r & -> & Hb & Hr & ->). rewrite kinds_app in H. destruct (kinds_one b r Hb) as (k & Ek). rewrite Ek in H.
  rewrite (proj2 (kinds_none r) Hr) in H. rewrite app_length in H. cbn in H.
  destruct (kind_split q) as (p & a & m & -> & Ha); [intros X; rewrite X in H; cbn in H; lia|].
  exists p, a, m, b, r. rewrite <- app_assoc. cbn. auto.
Qed.
(** Conversely, the place named in the message is unique. *)
Lemma last_app_other p b r : forall k, is_other b = false -> forallb is_other r = true -> last_kind k (p ++ b :: r) = Some (k + length p).
Proof.
  induction p as [|a p IH]; intros k Hb Hr; cbn [app last_kind].
  - rewrite (proj2 (last_none (1 + k) r) (proj2 (kinds_none r) Hr)), Hb. cbn. f_equal. lia.
  - rewrite IH by assumption. cbn. f_equal. lia.
Qed.

(** ** Identifiers *)
Lemma all_chars_app p s t : all_chars p (s ++ t)%string = (all_chars p s && all_chars p t)%bool.
Proof. induction s as [|c s IH]; cbn; [reflexivity|]. now rewrite IH, andb_assoc. Qed.
Lemma plain_valid s : plain_ident s = true -> valid_ident s = true.
Proof.
  destruct s as [|c1 [|c2 r]]; intros H; try exact H. unfold valid_ident. destruct (Ascii.eqb c1 "r" && Ascii.eqb c2 "#")%bool eqn:E; [|exact H].
  apply andb_true_iff in E. destruct E as [E1 E2]. apply Ascii.eqb_eq in E1, E2. subst. cbn in H. discriminate.
Qed.
Lemma plain_app s t : plain_ident s = true -> all_chars (fun c => is_letter c || is_digit c)%bool t = true -> plain_ident (s ++ t)%string = true.
Proof.
  destruct s as [|c s]; cbn [plain_ident append]; intros H Ht; [discriminate|]. apply andb_true_iff in H. destruct H as [H1 H2].
  rewrite H1, all_chars_app, H2, Ht. reflexivity.
Qed.
Lemma init_valid s : valid_ident ("Init" ++ s)%string = all_chars (fun c => is_letter c || is_digit c)%bool s.
Proof.
  cbn [append]. unfold valid_ident. replace (Ascii.eqb "I" "r" && Ascii.eqb "n" "#")%bool with false by reflexivity.
  unfold plain_ident. replace (is_letter "I") with true by reflexivity. cbn [andb all_chars]. reflexivity.
Qed.

(** ** Fields *)
Definition check_field (S : spelling) (i : nat) (f : fdecl) : result unit :=
  match kind f with
  | None => match last_kind 0 (fd_attrs f) with Some k => Bad msg_kinds (AtAttr i k) | None => Crash end
  | Some k =>
      match fd_vis f with
      | VIn _ => Bad msg_vis (AtFieldVis i)
      | _ =>
          if (is_tail f && negb (all_chars (fun c => is_letter c || is_digit c) (sp_camel S (printed S (fd_name f)))))%bool then Crash
          else if (kind_is FtVarlenArray f && negb (fd_array f))%bool then Bad msg_array (AtFieldType i) else Good tt
      end
  end.
Lemma parse_one_e_x S i fs f : lexed S ->
  parse_one_e S i (x_groups fs) f =
  match check_field S i f with Good _ => Good (x_groups (fs ++ [f])) | Bad m s => Bad m s | Crash => Crash end.
Proof.
  intros HS. pose proof (parse_one_x fs f) as [HL _]. unfold parse_one_e, check_field. rewrite retain_e_spec.
  assert (K : classify (fd_attrs f) = option_map (fun k => (k, x_attrs f)) (kind f)) by apply classify_kind.
  unfold legal in HL. unfold parse_one in HL. rewrite K in HL. revert HL. unfold kind, x_attrs, is_tail, kind_is. 
  destruct (kinds_of (fd_attrs f)) as [|k [|k' ks]] eqn:E; cbn [length Nat.ltb Nat.leb hd option_map].
  3:{ intros _. destruct (last_kind 0 (fd_attrs f)) eqn:L; [reflexivity|]. apply last_none in L. congruence. }
  all: intros HL.
  - unfold push_e, one_parse_e, try_parse_e. cbn [fd_vis fd_attrs fd_name]. unfold kind. rewrite E. destruct (fd_vis f) eqn:V; cbn [try_parse rbind];
      try (rewrite HL; [reflexivity|]; split; [exists FtNormal; split; [reflexivity|discriminate]|intros p; discriminate]). reflexivity.
  - unfold push_e, one_parse_e, try_parse_e. cbn [fd_vis fd_attrs fd_name fd_array]. unfold kind. rewrite E.
    assert (V1 : format_ident (sp_text S (fd_name f) ++ "_layout")%string = Good (sp_text S (fd_name f) ++ "_layout")%string).
    { unfold format_ident. now rewrite (plain_valid _ (plain_app _ "_layout" (HS _) eq_refl)). }
    assert (V2 : format_ident (sp_text S (fd_name f) ++ "_len")%string = Good (sp_text S (fd_name f) ++ "_len")%string).
    { unfold format_ident. now rewrite (plain_valid _ (plain_app _ "_len" (HS _) eq_refl)). }
    assert (V3 : format_ident ("Init" ++ sp_camel S (printed S (fd_name f)))%string = if all_chars (fun c => is_letter c || is_digit c)%bool (sp_camel S (printed S (fd_name f))) then Good ("Init" ++ sp_camel S (printed S (fd_name f)))%string else Crash).
    { unfold format_ident. now rewrite init_valid. }
    rewrite V1, V2, V3. clear V1 V2 V3.
    destruct (fd_vis f) eqn:V; cbn [try_parse rbind].
    6:{ destruct k; reflexivity. }
    all: destruct k; cbn [orb andb negb]; try (rewrite HL; [reflexivity|]; split; [eexists; split; [reflexivity|discriminate]|intros p; discriminate]);
      destruct (all_chars _ _); cbn [negb rbind]; try reflexivity;
      try (rewrite HL; [reflexivity|]; split; [eexists; split; [reflexivity|discriminate]|intros p; discriminate]).
    all: destruct (fd_array f) eqn:A; cbn [negb]; [|reflexivity]; rewrite HL; [reflexivity|]; split; [eexists; split; [reflexivity|reflexivity]|intros p; discriminate].
Qed.
Fixpoint check_fields (S : spelling) (i : nat) (fs : list fdecl) : result unit :=
  match fs with [] => Good tt | f :: r => x <~ check_field S i f ~~ check_fields S (1 + i) r end.
Lemma parse_from_e_x S fs : lexed S -> forall i dn,
  parse_from_e S i (x_groups dn) fs =
  match check_fields S i fs with Good _ => Good (x_groups (dn ++ fs)) | Bad m s => Bad m s | Crash => Crash end.
Proof.
  intros HS. induction fs as [|f fs IH]; intros i dn; cbn [parse_from_e check_fields]; [now rewrite app_nil_r|].
  rewrite (parse_one_e_x S i dn f HS). destruct (check_field S i f); cbn [rbind]; try reflexivity.
  rewrite IH, <- app_assoc. reflexivity.
Qed.
Lemma parse_fields_e_x S fs : lexed S ->
  parse_fields_e S fs = match check_fields S 0 fs with Good _ => Good (x_groups fs) | Bad m s => Bad m s | Crash => Crash end.
Proof. intros HS. unfold parse_fields_e. exact (parse_from_e_x S fs HS 0 []). Qed.
Lemma kind_none f : kind f = None <-> 2 <= length (kinds_of (fd_attrs f)).
Proof. unfold kind. destruct (kinds_of (fd_attrs f)) as [|k [|k' ks]]; cbn; split; intros H; try discriminate; try lia; reflexivity. Qed.
Lemma array_in f : kind_is FtVarlenArray f = true -> In AVarlenArray (fd_attrs f).
Proof.
  unfold kind_is, kind. intros H. assert (I : In FtVarlenArray (kinds_of (fd_attrs f))).
  { destruct (kinds_of (fd_attrs f)) as [|k [|]]; try discriminate. destruct k; try discriminate. now left. }
  clear H. induction (fd_attrs f) as [|[] l IH]; cbn in *; try destruct I as [I|I]; try discriminate; auto.
Qed.
Lemma in_array l : In AVarlenArray l -> In FtVarlenArray (kinds_of l).
Proof. induction l as [|a l IH]; [intros []|]. intros [-> |H]; [now left|]. destruct a; cbn; auto. Qed.
Lemma check_good S i f : check_field S i f = Good tt <-> legal f /\ (is_tail f = true -> good_field_name S f).
Proof.
  unfold check_field, legal, good_field_name. destruct (kind f) as [k|] eqn:K.
  2:{ split; [destruct (last_kind 0 (fd_attrs f)); discriminate|]. intros [[(k & X & _) _] _]. discriminate. }
  assert (V : (exists p, fd_vis f = VIn p) \/ (forall p, fd_vis f <> VIn p)) by (destruct (fd_vis f); eauto; right; discriminate).
  destruct V as [(p & V)|V].
  { rewrite V. split; [discriminate|]. intros [[_ X] _]. now destruct (X p). }
  replace (match fd_vis f with VIn _ => _ | _ => _ end) with
    (if (is_tail f && negb (all_chars (fun c => is_letter c || is_digit c) (sp_camel S (printed S (fd_name f)))))%bool then @Crash unit
          else if (kind_is FtVarlenArray f && negb (fd_array f))%bool then Bad msg_array (AtFieldType i) else Good tt) by (destruct (fd_vis f); try reflexivity; exfalso; eapply V; reflexivity).
  assert (A : kind_is FtVarlenArray f = true <-> k = FtVarlenArray) by (unfold kind_is; rewrite K; destruct k; split; intros; try discriminate; auto).
  destruct (is_tail f); cbn [andb]; destruct (all_chars _ _) eqn:C; cbn [negb]; destruct (kind_is FtVarlenArray f) eqn:B; cbn [andb]; destruct (fd_array f) eqn:D; cbn [negb]; split; intros H; try discriminate; try reflexivity;
    try (split; [split; [exists k; split; [reflexivity|]|exact V]|]; auto; intros X; apply A in X; discriminate).
  all: destruct H as [[(k' & X & Y) _] Z]; injection X as <-; try (specialize (Z eq_refl); discriminate); specialize (Y (proj1 A eq_refl)); discriminate.
Qed.
Lemma legal_kind f : legal f -> kind f <> None.
Proof. intros [(k & K & _) _]. congruence. Qed.
(** What is wrong with the first field that is not good. *)
Lemma checks_good S fs : forall i, check_fields S i fs = Good tt <-> Forall legal fs /\ good_names S fs.
Proof.
  induction fs as [|f fs IH]; intros i; cbn [check_fields]; [split; [intros _; split; [constructor|intros f []]|reflexivity]|].
  destruct (check_field S i f) as [[]|m s|] eqn:C; cbn [rbind].
  - apply check_good in C. rewrite IH. split; intros [H1 H2].
    + split; [constructor; tauto|]. intros g [<- |Hg]; [tauto|]. now apply H2.
    + inversion H1; subst. split; [assumption|]. intros g Hg. apply H2. now right.
  - split; [discriminate|]. intros [H1 H2]. inversion H1; subst. assert (X : check_field S i f = Good tt) by (apply check_good; split; [assumption|apply H2; now left]). congruence.
  - split; [discriminate|]. intros [H1 H2]. inversion H1; subst. assert (X : check_field S i f = Good tt) by (apply check_good; split; [assumption|apply H2; now left]). congruence.
Qed.
Lemma checks_split S fs : forall i, check_fields S i fs = Good tt \/
  exists p f r, fs = p ++ f :: r /\ check_fields S i p = Good tt /\ check_fields S i fs = check_field S (i + length p) f /\ check_field S (i + length p) f <> Good tt.
Proof.
  induction fs as [|f fs IH]; intros i; [now left|]. cbn [check_fields]. destruct (check_field S i f) as [[]|m s|] eqn:C; cbn [rbind].
  - destruct (IH (1 + i)) as [H|(p & g & r & -> & H1 & H2 & H3)]; [now left|]. right. exists (f :: p), g, r. cbn [length app check_fields]. rewrite C. cbn [rbind].
    replace (i + Datatypes.S (length p)) with (1 + i + length p) by lia. auto.
  - right. exists [], f, fs. cbn. rewrite Nat.add_0_r, C. repeat split; auto; discriminate.
  - right. exists [], f, fs. cbn. rewrite Nat.add_0_r, C. repeat split; auto; discriminate.
Qed.
Lemma nth_at {A} (p : list A) x r : nth_error (p ++ x :: r) (length p) = Some x.
Proof. induction p; auto. Qed.
Lemma check_bad S v n fs i f m s : nth_error fs i = Some f -> check_field S i f = Bad m s -> problem (IDecl v n (BNamed fs)) m s /\ part_of s = 1 + i.
Proof.
  intros Hn H. unfold check_field in H. destruct (kind f) as [k|] eqn:K.
  - destruct (fd_vis f) as [| | | | |p|] eqn:V.
    6:{ injection H as <- <-. split; [now apply (P_field_vis _ _ _ _ f p)|reflexivity]. }
    all: destruct (is_tail f && _)%bool; try discriminate; destruct (kind_is FtVarlenArray f && negb (fd_array f))%bool eqn:A; [|discriminate]; injection H as <- <-;
      apply andb_true_iff in A; destruct A as [A B]; (split; [|reflexivity]); apply (P_array _ _ _ _ f); auto; [now apply array_in|now apply negb_true_iff].
  - apply kind_none in K. destruct (two_kinds _ K) as (p & a & q & b & r & E & Ha & Hb & Hr & L). rewrite L in H. injection H as <- <-.
    split; [|reflexivity]. now apply (P_kinds _ _ _ _ f p a q b r).
Qed.
Lemma problem_field v n fs m s : problem (IDecl v n (BNamed fs)) m s ->
  (part_of s = 0 /\ exists p, v = VIn p) \/ exists i f, part_of s = 1 + i /\ nth_error fs i = Some f /\ ~ legal f.
Proof.
  intros H. inversion H; subst.
  - left. split; [reflexivity|eauto].
  - right. exists i, f. split; [reflexivity|]. split; [assumption|]. intros L. apply (legal_kind _ L). apply kind_none.
    match goal with E : fd_attrs f = _ |- _ => rewrite E end. rewrite kinds_app, app_length.
    destruct (kinds_one a (m0 ++ b :: r)) as (k1 & ->); [assumption|]. rewrite kinds_app. destruct (kinds_one b r) as (k2 & ->); [assumption|]. cbn [length]. rewrite app_length. cbn [length]. lia.
  - right. exists i, f. split; [reflexivity|]. split; [assumption|]. intros [_ L]. eapply L. eassumption.
  - right. exists i, f. split; [reflexivity|]. split; [assumption|]. intros [(k & K & L) _].
    match goal with I : In AVarlenArray _ |- _ => apply in_array in I; revert K; unfold kind end.
    destruct (kinds_of (fd_attrs f)) as [|k1 [|]]; try discriminate. all: intros E; match goal with I : In _ _ |- _ => cbn in I; destruct I as [] end; try contradiction; assert (K : k = FtVarlenArray) by congruence; specialize (L K); congruence.
Qed.

(** ** C67 *)
Lemma impl_named S v name fs : lexed S ->
  define_varlen_impl S (IDecl v name (BNamed fs)) =
  match try_parse v with
  | None => Bad msg_vis AtVis
  | Some (vo, vi) =>
      if valid_ident (sp_snake S (printed S name)) then
        match check_fields S 0 fs with
        | Good _ => Good (mkEx vo vi (sp_snake S (printed S name)) name (x_groups fs))
        | Bad m s => Bad m s
        | Crash => Crash
        end
      else Crash
  end.
Proof.
  intros HS. cbn [define_varlen_impl named_fields rbind]. unfold try_parse_e. destruct (try_parse v) as [[vo vi]|]; cbn [rbind fst snd]; [|reflexivity].
  unfold format_ident. destruct (valid_ident _); cbn [rbind]; [|reflexivity]. rewrite parse_fields_e_x by exact HS. destruct (check_fields S 0 fs); reflexivity.
Qed.
(** C67. define_varlen replaces a declaration by generated code exactly when it is a struct with named fields,
    its visibility and its fields are supported (C40, C41, C47), and the names it derives are identifiers;
    the code is the one C47, C49 and C62 speak of. *)
Theorem C67_accepts : forall S d e, lexed S ->
  (define_varlen S d = Some [PExpansion e] <->
   exists v name fs, d = IDecl v name (BNamed fs) /\ good_vis v /\ Forall legal fs /\ good_names S fs /\
     ex_mod e = sp_snake S (printed S name) /\ valid_ident (ex_mod e) = true /\
     ex_name e = name /\ try_parse v = Some (ex_vis e, ex_inner e) /\ parse_fields fs = Some (ex_groups e)).
Proof.
  intros S d e HS. unfold define_varlen. split.
  - intros H. destruct d as [|v name []]; try discriminate. rewrite impl_named in H by exact HS.
    destruct (try_parse v) as [[vo vi]|] eqn:V; [|discriminate]. destruct (valid_ident _) eqn:I; [|discriminate].
    destruct (check_fields S 0 fs) as [[]| |] eqn:C; try discriminate. injection H as <-. apply checks_good in C. destruct C as [C1 C2].
    exists v, name, fs. cbn. repeat split; auto.
    + intros p ->. discriminate.
    + apply C47_fields_grouped. exact C1.
  - intros (v & name & fs & -> & Hv & HL & HN & Em & Ei & En & Ev & Ep). rewrite impl_named by exact HS. rewrite Ev, <- Em, Ei.
    rewrite (proj2 (checks_good S fs 0) (conj HL HN)). rewrite (proj1 (C47_fields_grouped fs) HL) in Ep. injection Ep as Ep. rewrite Ep, <- En. now destruct e.
Qed.
(** Otherwise the declaration is emitted as it was, with exactly one error after it; the error says what is
    wrong and where, and nothing is wrong with an earlier part of the declaration. *)
Theorem C67_refuses : forall S d out, lexed S -> define_varlen S d = Some out -> (forall e, out <> [PExpansion e]) ->
  exists m s, out = [PArgs; PItem d; PCompileError m s] /\ problem d m s /\
    forall m' s', problem d m' s' -> part_of s <= part_of s'.
Proof.
  intros S d out HS H Hn. unfold define_varlen in H. destruct d as [|v name b].
  { injection H as <-. eexists _, _. split; [reflexivity|]. split; [constructor|]. cbn. lia. }
  destruct b as [fs| | | |]; try (injection H as <-; eexists _, _; split; [reflexivity|]; split; [constructor|]; cbn; lia).
  rewrite impl_named in H by exact HS. destruct (try_parse v) as [[vo vi]|] eqn:V.
  2:{ injection H as <-. apply C41_rejected in V. destruct V as (p & ->). eexists _, _. split; [reflexivity|]. split; [constructor|]. cbn. lia. }
  destruct (valid_ident _); [|discriminate]. destruct (check_fields S 0 fs) as [[]|m s|] eqn:C; try discriminate.
  { exfalso. injection H as <-. eapply Hn. reflexivity. }
  injection H as <-. exists m, s. split; [reflexivity|]. destruct (checks_split S fs 0) as [X|(p & f & r & -> & H1 & H2 & H3)]; [congruence|].
  rewrite C in H2. symmetry in H2. destruct (check_bad S v name (p ++ f :: r) _ f m s (nth_at p f r) H2) as [P E]. split; [exact P|].
  intros m' s' P'. rewrite E. cbn [Nat.add]. destruct (problem_field _ _ _ _ _ P') as [(_ & q & ->)|(i & g & -> & Hg & Hl)]; [discriminate|].
  cbn. apply le_n_S. apply checks_good in H1. destruct H1 as [H1 _]. destruct (Nat.le_gt_cases (length p) i) as [L|L]; [exact L|]. exfalso. apply Hl.
  rewrite nth_error_app1 in Hg by exact L. apply nth_error_In in Hg. rewrite Forall_forall in H1. auto.
Qed.
(** A declaration with a problem never gets code. *)
Theorem C67_problem_reported : forall S d m s e, lexed S -> problem d m s -> define_varlen S d <> Some [PExpansion e].
Proof.
  intros S d m s e HS P H. apply (C67_accepts S d e HS) in H. destruct H as (v & name & fs & -> & Hv & HL & _).
  destruct (problem_field _ _ _ _ _ P) as [(_ & p & E)|(i & f & _ & Hf & Hl)]; [now apply (Hv p)|]. apply Hl. apply nth_error_In in Hf. rewrite Forall_forall in HL. auto.
Qed.
(** The macro itself panics exactly when it comes to a name it cannot derive an identifier from: the module's,
    or that of a tail field all fields before which are fine. *)
Theorem C67_panics_exact : forall S d, lexed S ->
  (define_varlen S d = None <->
   exists v name fs, d = IDecl v name (BNamed fs) /\ good_vis v /\
     (valid_ident (sp_snake S (printed S name)) = false \/
      exists before f after, fs = before ++ f :: after /\ Forall legal before /\ good_names S before /\
        is_tail f = true /\ good_vis (fd_vis f) /\ ~ good_field_name S f)).
Proof.
  intros S d HS. unfold define_varlen. split.
  - intros H. destruct d as [|v name []]; try discriminate. rewrite impl_named in H by exact HS.
    destruct (try_parse v) as [[vo vi]|] eqn:V; [|discriminate]. exists v, name, fs. split; [reflexivity|]. split; [intros p ->; discriminate|].
    destruct (valid_ident _) eqn:I; [right|now left]. destruct (check_fields S 0 fs) as [|m s|] eqn:C; try discriminate.
    destruct (checks_split S fs 0) as [X|(p & f & r & -> & H1 & H2 & H3)]; [congruence|]. rewrite C in H2. symmetry in H2.
    apply checks_good in H1. exists p, f, r. repeat split; try tauto.
    all: unfold check_field, good_field_name in *; destruct (kind f) as [k|] eqn:K; [|destruct (last_kind 0 (fd_attrs f)) eqn:L; [discriminate|]; apply last_none in L; unfold kind in K; rewrite L in K; discriminate].
    all: destruct (fd_vis f) eqn:W; try discriminate; destruct (is_tail f) eqn:T; cbn [andb] in H2; destruct (all_chars _ _) eqn:A; cbn [negb] in H2; try reflexivity; try discriminate;
      try (destruct (kind_is FtVarlenArray f && negb (fd_array f))%bool; discriminate); try (intros q; discriminate).
  - intros (v & name & fs & -> & Hv & H). rewrite impl_named by exact HS. destruct (try_parse v) as [[vo vi]|] eqn:V; [|apply C41_rejected in V; destruct V as (p & ->); now destruct (Hv p)].
    destruct H as [-> |(p & f & r & -> & HL & HN & T & W & B)]; [reflexivity|]. destruct (valid_ident _); [|reflexivity].
    assert (C : check_fields S 0 (p ++ f :: r) = Crash); [|now rewrite C].
    assert (Cf : forall i, check_field S i f = Crash).
    { intros i. unfold check_field. destruct (kind f) as [k|] eqn:K; [|unfold is_tail, kind_is in T; rewrite K in T; discriminate]. rewrite T. unfold good_field_name in B.
      destruct (all_chars _ _); [now destruct B|]. cbn [negb andb]. destruct (fd_vis f) as [| | | | |q|] eqn:E; try reflexivity. now destruct (W q). }
    pose proof (proj2 (checks_good S p 0) (conj HL HN)) as Hp. clear HL HN.
    assert (G : forall i, check_fields S i p = Good tt -> check_fields S i (p ++ f :: r) = Crash).
    { clear Hp. induction p as [|g p IH]; intros i H; cbn [app check_fields] in *; [now rewrite Cf|]. destruct (check_field S i g) as [[]| |]; cbn [rbind] in *; try discriminate. now apply IH. }
    now apply G.
Qed.
(** Hence it never panics when the derived names are identifiers; then every declaration gets code or an
    error. *)
Theorem C67_no_panic_partial : forall S d, lexed S ->
  (forall v name fs, d = IDecl v name (BNamed fs) -> valid_ident (sp_snake S (printed S name)) = true /\ good_names S fs) ->
  define_varlen S d <> None.
Proof.
  intros S d HS HN H. apply (C67_panics_exact S d HS) in H. destruct H as (v & name & fs & -> & _ & [H|(p & f & r & -> & _ & _ & T & _ & B)]);
    destruct (HN _ _ _ eq_refl) as [H1 H2]; [congruence|]. apply B. apply H2; [|exact T]. apply in_or_app. right. now left.
Qed.

(** ** Concrete declarations *)
(** The case conversions as far as the examples need them: the words of a name are joined with underscores
    and in lower case, or capitalised; characters that are no letters stay. *)
Definition lower (c : ascii) : ascii := let n := nat_of_ascii c in if ((65 <=? n) && (n <=? 90))%bool then ascii_of_nat (n + 32) else c.
Definition upper (c : ascii) : ascii := let n := nat_of_ascii c in if ((97 <=? n) && (n <=? 122))%bool then ascii_of_nat (n - 32) else c.
Fixpoint words (cur : string) (s : string) : list string :=
  match s with
  | EmptyString => match cur with EmptyString => [] | _ => [cur] end
  | String c r =>
      if Ascii.eqb c "_" then match cur with EmptyString => words "" r | _ => cur :: words "" r end
      else words (cur ++ String c "")%string r
  end.
Fixpoint map_s (g : ascii -> ascii) (s : string) : string := match s with EmptyString => EmptyString | String c r => String (g c) (map_s g r) end.
Definition capital (s : string) : string := match s with EmptyString => EmptyString | String c r => String (upper c) (map_s lower r) end.
Definition camel_ex (s : string) : string := String.concat "" (map capital (words "" s)).
Definition snake_ex (s : string) : string := String.concat "_" (map (map_s lower) (words "" s)).
(** Names: 0 is T, 1 is x, 2 is first_name, 3 is r#type, 4 is __. *)
Definition sp_ex : spelling :=
  mkSp (fun n => match n with 0 => "T" | 1 => "x" | 2 => "first_name" | 3 => "type" | _ => "__" end)%string (Nat.eqb 3) snake_ex camel_ex.
Lemma lexed_ex : lexed sp_ex.
Proof. intros [|[|[|[|n]]]]; reflexivity. Qed.
Definition fld (n : nat) (l : list attr) (v : visibility) (arr : bool) : fdecl := mkFd n l v arr 0 0.
(** The declarations of varlen_example/shouldfail/unsupported_syntax.rs and the errors recorded in
    unsupported_syntax.stderr; and a struct that is accepted. *)
Definition refused (d : item) (m : string) (s : span) : Prop :=
  define_varlen sp_ex d = Some [PArgs; PItem d; PCompileError m s] /\ problem d m s.
Example C67_meets :
  refused (IDecl VInherited 0 BTuple) "define_varlen requires named fields" AtName /\
  refused (IDecl VInherited 0 BEnum) "define_varlen requires a struct" AtName /\
  refused (IDecl VInherited 0 BUnion) "define_varlen requires a struct" AtName /\
  refused (IDecl VPub 0 (BNamed [fld 1 [] (VIn [1; 2]) false])) "Visibility must be one of: (none), pub, pub(crate), pub(self), pub(super)" (AtFieldVis 0) /\
  refused (IDecl VPub 0 (BNamed [fld 1 [AVarlenArray] VInherited false])) "Fields annotated with #[varlen_array] must be of array type" (AtFieldType 0) /\
  refused (IDecl VPub 0 (BNamed [fld 1 [AVarlenArray; ALayout] VInherited true]))
    "Field must have at most one of #[varlen], #[varlen_array], #[controls_layout] attributes" (AtAttr 0 1) /\
  refused IOther "define_varlen could not parse this as a struct" AtParse /\
  (* two problems: the one of the earlier field is reported; three kind attributes: the last one is *)
  refused (IDecl VPub 0 (BNamed [fld 1 [AOther 7] VPub false; fld 2 [AVarlen; ALayout; AOther 5; AVarlen; AOther 6] VPub true; fld 4 [] (VIn [1]) false]))
    msg_kinds (AtAttr 1 3) /\
  (exists e, define_varlen sp_ex (IDecl VPub 0 (BNamed [fld 1 [ALayout] VPub false; fld 2 [AVarlenArray] VInherited true])) = Some [PExpansion e] /\ ex_mod e = "t"%string).
Proof.
  unfold refused. repeat match goal with |- _ /\ _ => split end; try reflexivity; try constructor.
  - now apply (P_field_vis _ _ _ 0 (fld 1 [] (VIn [1; 2]) false) [1; 2]).
  - now apply (P_array _ _ _ 0 (fld 1 [AVarlenArray] VInherited false)); [|left|].
  - now apply (P_kinds _ _ _ 0 (fld 1 [AVarlenArray; ALayout] VInherited true) [] AVarlenArray [] ALayout []).
  - now apply (P_kinds _ _ _ 1 (fld 2 [AVarlen; ALayout; AOther 5; AVarlen; AOther 6] VPub true) [AVarlen] ALayout [AOther 5] AVarlen [AOther 6]).
  - eexists. split; reflexivity.
Qed.
(** That the macro never panics is refuted: convert_case keeps the r# of a raw identifier (it is neither a
    letter nor a word boundary), and the name of a struct that consists of underscores has no words. Both
    declarations are ones Rust accepts, and nothing is wrong with them. *)
Theorem C67_no_panic_refuted : forall S v,
  (forall p, v <> VIn p) ->
  (forall name f, printed S (fd_name f) = "r#type"%string -> sp_camel S "r#type" = "R#type"%string ->
     lexed S -> legal f -> is_tail f = true ->
     define_varlen S (IDecl v name (BNamed [f])) = None) /\
  (forall name fs, printed S name = "__"%string -> sp_snake S "__" = ""%string -> lexed S ->
     define_varlen S (IDecl v name (BNamed fs)) = None).
Proof.
  intros S v Hv. split.
  - intros name f E C HS HL T. apply (C67_panics_exact S _ HS). exists v, name, [f]. split; [reflexivity|]. split; [exact Hv|]. right. exists [], f, [].
    split; [reflexivity|]. split; [constructor|]. split; [intros g []|]. split; [exact T|]. split; [exact (proj2 HL)|]. unfold good_field_name. rewrite E, C. discriminate.
  - intros name fs E C HS. apply (C67_panics_exact S _ HS). exists v, name, fs. split; [reflexivity|]. split; [exact Hv|]. left. now rewrite E, C.
Qed.
Example C67_panic_meets :
  lexed sp_ex /\ printed sp_ex 3 = "r#type"%string /\ sp_camel sp_ex "r#type" = "R#type"%string /\ legal (fld 3 [AVarlen] VPub false) /\ is_tail (fld 3 [AVarlen] VPub false) = true /\
  define_varlen sp_ex (IDecl VPub 0 (BNamed [fld 3 [AVarlen] VPub false])) = None /\
  (exists e, define_varlen sp_ex (IDecl VPub 0 (BNamed [fld 3 [] VPub false])) = Some [PExpansion e]) /\
  printed sp_ex 4 = "__"%string /\ sp_snake sp_ex "__" = ""%string /\ define_varlen sp_ex (IDecl VPub 4 (BNamed [])) = None.
Proof.
  split; [exact lexed_ex|]. repeat match goal with |- _ /\ _ => split end; try reflexivity; try discriminate.
  - split; [exists FtVarlen; split; [reflexivity|discriminate]|intros p; discriminate].
  - eexists. reflexivity.
Qed.
