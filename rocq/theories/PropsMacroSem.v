(** PropsMacroSem.v - C49: the code define_varlen generates for a struct behaves as the struct type of
    the model, for every struct definition that rustc accepts. *)
From Coq Require Import PeanoNat.
From Verif Require Export PropsMacro MacroSem.

(** ** Specification *)
(** The name of a field, and of the layout entry that goes with a tail field. *)
Definition fname (S : tokens) (f : fdecl) : string := tk_name S (fd_name f).
Definition fentry (S : tokens) (f : fdecl) : string :=
  match kind f with
  | Some FtVarlenArray => (fname S f ++ "_len")%string
  | _ => (fname S f ++ "_layout")%string
  end.
Definition tails (fs : list fdecl) : list fdecl := filter is_tail fs.
Definition tail_names (S : tokens) (fs : list fdecl) : list string := flat_map (fun f => [fname S f; fentry S f]) (tails fs).
(** What rustc enforces on the generated code: the struct has no two fields of the same name, the layout
    struct has no two fields of the same name (one of them is "size"), the local variable "lengths" is
    not hidden by a tail field in front of an array field (its length function would get a number
    instead of the controllers), and the generic parameters of Init are distinct. *)
Definition lengths_visible (S : tokens) (fs : list fdecl) : Prop :=
  forall before f after, fs = before ++ f :: after -> kind f = Some FtVarlenArray -> ~ In "lengths"%string (tail_names S before).
Definition names_ok (S : tokens) (fs : list fdecl) : Prop :=
  NoDup (map (fname S) fs) /\
  NoDup ("size"%string :: tail_names S fs) /\
  lengths_visible S fs /\
  NoDup (map (fun f => "Init" ++ tk_camel S (fname S f))%string (tails fs)).

(** The struct type the user wrote: every field with the meaning of its kind, in declaration order; the
    length of an array field is its length expression evaluated with the names of the
    controls_layout fields bound to their values. *)
Definition ctrl_names (S : tokens) (fs : list fdecl) : list string := map (fname S) (filter (kind_is FtLength) fs).
Fixpoint flds_of (S : tokens) (cn : list string) (fs : list fdecl) : flds :=
  match fs with
  | [] => FNil
  | f :: r =>
      match kind f with
      | Some FtLength => FLength (tk_off S (fname S f)) (tk_fty S (fd_ty f)) (flds_of S cn r)
      | Some FtVarlen => FVar (tk_vty S (fd_ty f)) (flds_of S cn r)
      | Some FtVarlenArray =>
          FArr (tk_fty S (fd_ty f)) (fun cs => tk_expr S (fd_len f) (fun x => assoc x (combine cn cs))) (flds_of S cn r)
      | _ => FNormal (tk_off S (fname S f)) (tk_fty S (fd_ty f)) (flds_of S cn r)
      end
  end.
Definition struct_flds (S : tokens) (fs : list fdecl) : flds := flds_of S (ctrl_names S fs) fs.
Definition struct_ty (S : tokens) (fs : list fdecl) : vty := TRec KStruct (tk_hs S) (tk_ha S) (struct_flds S fs).

(** A layout of the struct as an object with named fields. *)
Definition entry_val (f : fdecl) (l : lay) : rv :=
  match kind f with Some FtVarlenArray => RNum (lay_size l) | _ => RLay l end.
Fixpoint named (S : tokens) (tl : list fdecl) (es : list (N * lay)) (size : N) : env :=
  match tl, es with
  | f :: tl, (o, l) :: es => (fname S f, RNum o) :: (fentry S f, entry_val f l) :: named S tl es size
  | _, _ => [("size"%string, RNum size)]
  end.
Definition named_layout (S : tokens) (fs : list fdecl) (l : lay) : env :=
  match l with LyRec size es => named S (tails fs) es size | _ => [] end.
(** The layouts of this struct type: one entry per tail field, a plain length for an array field. *)
Definition entry_ok (f : fdecl) (e : N * lay) : Prop := kind f = Some FtVarlenArray -> exists n, snd e = LyLen n.
Definition layout_of (fs : list fdecl) (l : lay) : Prop :=
  exists size es, l = LyRec size es /\ Forall2 entry_ok (tails fs) es.
(** The Init values of this struct type: one initializer per field, a plain value for a header field, an
    array initializer for an array field. *)
Definition init_ok (f : fdecl) (i : init) : Prop :=
  match kind f with
  | Some FtVarlen => True
  | Some FtVarlenArray => exists ai, i = IArrF ai
  | _ => exists v, i = IFixed v
  end.
Definition named_init (S : tokens) (fs : list fdecl) (is_ : list init) : self_init := combine (map (fname S) fs) is_.

(** ** Simulation *)
Definition sim {A B} (R : A -> B -> Prop) (m1 : M world A) (m2 : M world B) : Prop :=
  forall w, match m1 w, m2 w with
            | Ok a w1, Ok b w2 => w1 = w2 /\ R a b
            | Panic w1, Panic w2 => w1 = w2
            | UB u1, UB u2 => u1 = u2
            | _, _ => False
            end.
Lemma sim_ret {A B} (R : A -> B -> Prop) a b : R a b -> sim R (ret a) (ret b).
Proof. intros H w. cbn. auto. Qed.
Lemma sim_bind {A B C D} (R : A -> B -> Prop) (Q : C -> D -> Prop) m1 m2 k1 k2 :
  sim R m1 m2 -> (forall a b, R a b -> sim Q (k1 a) (k2 b)) -> sim Q (bind m1 k1) (bind m2 k2).
Proof.
  intros H K w. unfold bind. specialize (H w). destruct (m1 w), (m2 w); try contradiction; auto.
  destruct H as [-> H]. apply K, H.
Qed.
Lemma sim_refl {A} (m : M world A) : sim eq m m.
Proof. intros w. destruct (m w); auto. Qed.
Lemma sim_same {A C D} (Q : C -> D -> Prop) (m : M world A) k1 k2 :
  (forall a, sim Q (k1 a) (k2 a)) -> sim Q (bind m k1) (bind m k2).
Proof. intros K. apply (sim_bind eq); [apply sim_refl|]. intros a b ->. apply K. Qed.
Lemma sim_assoc_l {A B C D} (Q : C -> D -> Prop) (m : M world A) (k : A -> M world B) (h : B -> M world C) m2 :
  sim Q (bind m (fun x => bind (k x) h)) m2 -> sim Q (bind (bind m k) h) m2.
Proof. intros H w. specialize (H w). unfold bind in *. destruct (m w); auto. Qed.
Lemma sim_assoc_r {A B C D} (Q : C -> D -> Prop) (m : M world A) (k : A -> M world B) (h : B -> M world D) m2 :
  sim Q m2 (bind m (fun x => bind (k x) h)) -> sim Q m2 (bind (bind m k) h).
Proof. intros H w. specialize (H w). unfold bind in *. destruct (m w); auto. Qed.
Lemma sim_map_r {A B C} (R : A -> B -> Prop) (Q : A -> C -> Prop) m1 m2 (h : B -> C) :
  sim R m1 m2 -> (forall a b, R a b -> Q a (h b)) -> sim Q m1 (bind m2 (fun b => ret (h b))).
Proof. intros H K w. specialize (H w). unfold bind. destruct (m1 w), (m2 w); cbn; auto. destruct H; auto. Qed.
Lemma sim_weaken {A B} (R Q : A -> B -> Prop) m1 m2 : sim R m1 m2 -> (forall a b, R a b -> Q a b) -> sim Q m1 m2.
Proof. intros H K w. specialize (H w). destruct (m1 w), (m2 w); auto. destruct H; auto. Qed.
Lemma sim_eq {A} (m1 m2 : M world A) : sim eq m1 m2 -> forall w, m1 w = m2 w.
Proof. intros H w. specialize (H w). destruct (m1 w), (m2 w); try contradiction; try (destruct H); subst; auto. Qed.
Lemma eq_sim {A} (m1 m2 : M world A) : (forall w, m1 w = m2 w) -> sim eq m1 m2.
Proof. intros H w. rewrite H. destruct (m2 w); auto. Qed.
Lemma sim_unwind {A B} (R : A -> B -> Prop) m1 m2 (c1 c2 : M world unit) :
  sim R m1 m2 -> sim eq c1 c2 -> sim R (on_unwind m1 c1) (on_unwind m2 c2).
Proof.
  intros H K w. unfold on_unwind. specialize (H w). destruct (m1 w), (m2 w); try contradiction; auto.
  subst. specialize (K s0). destruct (c1 s0), (c2 s0); try contradiction; try (destruct K); subst; auto.
Qed.

(** ** Lookups *)
Lemma assoc_in {A} x (l : list (string * A)) v : NoDup (map fst l) -> In (x, v) l -> assoc x l = Some v.
Proof.
  induction l as [|[y u] l IH]; intros Hn Hi; [destruct Hi|]. cbn in Hn. inversion Hn; subst. cbn [assoc].
  destruct Hi as [E|Hi].
  - injection E as -> ->. now rewrite String.eqb_refl.
  - destruct (String.eqb_spec x y) as [->|]; [|auto]. exfalso. apply H1. apply (in_map fst) in Hi. exact Hi.
Qed.
Lemma assoc_notin {A} x (l : list (string * A)) : ~ In x (map fst l) -> assoc x l = None.
Proof.
  induction l as [|[y u] l IH]; intros H; [reflexivity|]. cbn [assoc]. destruct (String.eqb_spec x y) as [->|].
  - exfalso. apply H. left. reflexivity.
  - apply IH. intros X. apply H. right. exact X.
Qed.
Lemma map_fst_combine {A B} (l : list A) : forall (k : list B), length l = length k -> map fst (combine l k) = l.
Proof. induction l as [|a l IH]; intros [|b k] H; try discriminate; [reflexivity|]. cbn. f_equal. apply IH. injection H; auto. Qed.
Lemma combine_map {A B C} (f : A -> B) (h : A -> C) l : combine (map f l) (map h l) = map (fun x => (f x, h x)) l.
Proof. induction l; cbn; congruence. Qed.
Lemma assoc_map {A B} (f : B -> string) (h : B -> A) l x : NoDup (map f l) -> In x l -> assoc (f x) (combine (map f l) (map h l)) = Some (h x).
Proof.
  intros Hn Hi. rewrite combine_map. apply assoc_in.
  - rewrite map_map. exact Hn.
  - apply (in_map (fun x => (f x, h x))). exact Hi.
Qed.

(** ** The accepted groups *)
Lemma accepted fs g : parse_fields fs = Some g -> Forall legal fs /\ g = x_groups fs.
Proof.
  intros H. destruct (C47_fields_grouped fs) as [H1 H2].
  assert (HL : Forall legal fs \/ ~ Forall legal fs).
  { clear. induction fs as [|f fs IH]; [left; constructor|]. destruct (legal_dec f) as [Hf|Hf]; [|right; intros X; inversion X; contradiction].
    destruct IH as [IH|IH]; [left; constructor; auto|right; intros X; inversion X; contradiction]. }
  destruct HL as [HL|HL]; [rewrite (H1 HL) in H|rewrite (H2 HL) in H]; split; congruence.
Qed.
Lemma x_all_names S fs : all_names S (x_groups fs) = map (fname S) fs.
Proof. unfold all_names. cbn. now rewrite map_map. Qed.
Lemma x_len_names S fs : len_names S (x_groups fs) = ctrl_names S fs.
Proof. unfold len_names, ctrl_names. cbn. now rewrite map_map. Qed.
Lemma x_var_names S fs : var_names S (x_groups fs) = map (fname S) (tails fs).
Proof. unfold var_names. cbn. now rewrite map_map. Qed.
Lemma render_entry S f : is_tail f = true -> render S (x_layout_ident f) = fentry S f.
Proof. unfold is_tail, kind_is, x_layout_ident, pick, fentry, fname. destruct (kind f) as [[]|]; cbn; intros H; try discriminate; reflexivity. Qed.
Lemma x_lay_names S fs : lay_names S (x_groups fs) = map (fentry S) (tails fs).
Proof.
  unfold lay_names. cbn. rewrite map_map. fold (tails fs). apply map_ext_in. intros f Hf. apply filter_In in Hf. now apply render_entry.
Qed.
Lemma x_decl_of S fs f : NoDup (map (fname S) fs) -> In f fs -> decl_of S (x_groups fs) (fname S f) = Some (x_decl f).
Proof. intros Hn Hi. unfold decl_of. rewrite x_all_names. cbn [x_groups g_decl_ty]. now apply assoc_map. Qed.
Lemma x_header_fty S fs f : NoDup (map (fname S) fs) -> In f fs -> (kind f = Some FtNormal \/ kind f = Some FtLength) ->
  header_fty S (x_groups fs) (fname S f) = ret (tk_fty S (fd_ty f)).
Proof. intros Hn Hi Hk. unfold header_fty. rewrite x_decl_of by auto. unfold x_decl, pick. destruct Hk as [-> | ->]; reflexivity. Qed.
Lemma names_entry S fs : NoDup (tail_names S fs) -> NoDup (map (fname S) (tails fs)) /\ NoDup (map (fentry S) (tails fs)).
Proof.
  unfold tail_names. induction (tails fs) as [|f l IH]; cbn; intros H; [split; constructor|]. inversion H; subst. inversion H3; subst.
  destruct (IH H5) as [I1 I2].
  assert (A : forall x, In x (map (fname S) l) -> In x (flat_map (fun f => [fname S f; fentry S f]) l)).
  { intros x Hx. apply in_map_iff in Hx. destruct Hx as (y & <- & Hy). apply in_flat_map. exists y. cbn. auto. }
  assert (B : forall x, In x (map (fentry S) l) -> In x (flat_map (fun f => [fname S f; fentry S f]) l)).
  { intros x Hx. apply in_map_iff in Hx. destruct Hx as (y & <- & Hy). apply in_flat_map. exists y. cbn. auto. }
  split; constructor; auto.
  intros X. apply H2. cbn. right. apply A, X.
Qed.
Lemma kind_is_spec k f : kind_is k f = true <-> kind f = Some k.
Proof. unfold kind_is. destruct (kind f) as [[]|], k; split; intros H; try discriminate; reflexivity. Qed.
Lemma filter_filter_arr fs : filter (kind_is FtVarlenArray) fs = filter (kind_is FtVarlenArray) (tails fs).
Proof.
  unfold tails. induction fs as [|f fs IH]; [reflexivity|]. cbn [filter]. unfold is_tail.
  destruct (kind_is FtVarlenArray f) eqn:E; cbn [orb].
  - rewrite orb_true_r. cbn [filter]. rewrite E. now f_equal.
  - rewrite orb_false_r. destruct (kind_is FtVarlen f); cbn [filter]; rewrite ?E; auto.
Qed.
Lemma NoDup_map_filter {A B} (h : A -> B) p l : NoDup (map h l) -> NoDup (map h (filter p l)).
Proof.
  induction l as [|x l IH]; intros H; [constructor|]. cbn in H. inversion H; subst. cbn [filter]. destruct (p x); auto.
  cbn. constructor; auto. intros X. apply H2. apply in_map_iff in X. destruct X as (y & <- & Hy). apply filter_In in Hy. apply in_map. tauto.
Qed.
Lemma x_call_len S fs f cs : NoDup (tail_names S fs) -> In f fs -> kind f = Some FtVarlenArray ->
  call_len S (x_groups fs) (render S (ILen (fd_name f))) cs =
  len_call (tk_expr S (fd_len f) (fun x => assoc x (combine (ctrl_names S fs) cs))).
Proof.
  intros Hn Hi Hk. unfold call_len. rewrite x_len_names. cbn [x_groups g_lenexpr_ident g_lenexpr].
  rewrite map_map.
  assert (Ha : In f (filter (kind_is FtVarlenArray) fs)).
  { apply filter_In. split; [exact Hi|]. now apply kind_is_spec. }
  rewrite (assoc_map (fun f => render S (ILen (fd_name f))) fd_len); [reflexivity| |exact Ha].
  rewrite (map_ext_in (fun f => render S (ILen (fd_name f))) (fentry S)).
  - rewrite filter_filter_arr. apply NoDup_map_filter. now apply names_entry.
  - intros y Hy. apply filter_In in Hy. destruct Hy as [_ Hy]. apply kind_is_spec in Hy. unfold fentry. now rewrite Hy.
Qed.

(** ** Environments *)
Definition binds (S : tokens) (tl : list fdecl) (es : list (N * lay)) (e : env) : Prop :=
  Forall2 (fun f oe => assoc (fname S f) e = Some (RNum (fst oe)) /\ assoc (fentry S f) e = Some (entry_val f (snd oe)) /\ entry_ok f oe) tl es.
Lemma bind_cat_other e x l q y : y <> x -> y <> l -> y <> "size"%string -> assoc y (bind_cat e x l q) = assoc y e.
Proof.
  intros H1 H2 H3. unfold bind_cat. cbn [assoc].
  rewrite (proj2 (String.eqb_neq y x)), (proj2 (String.eqb_neq y l)), (proj2 (String.eqb_neq y "size")) by auto. reflexivity.
Qed.
Lemma lay_lit_eq S tl es size e : binds S tl es e -> assoc "size"%string e = Some (RNum size) ->
  forall w, lay_lit e (map (fname S) tl) (map (fentry S) tl) w = ret (named S tl es size) w.
Proof.
  intros H Hs. induction H as [|f [o l] tl es (H1 & H2 & _) _ IH]; intros w.
  - cbn. unfold get_num. now rewrite Hs.
  - cbn [map lay_lit named]. rewrite H1, H2. unfold get, bind, ret in *. rewrite IH. reflexivity.
Qed.
Lemma named_binds S tl : forall es size, NoDup ("size"%string :: flat_map (fun f => [fname S f; fentry S f]) tl) -> Forall2 entry_ok tl es ->
  binds S tl es (named S tl es size) /\ assoc "size"%string (named S tl es size) = Some (RNum size).
Proof.
  induction tl as [|f tl IH]; intros es size Hn H; inversion H; subst.
  - split; [constructor|reflexivity].
  - destruct y as [o l]. cbn [flat_map app] in Hn. inversion Hn as [|? ? N1 N2]; subst. inversion N2 as [|? ? N3 N4]; subst. inversion N4 as [|? ? N5 N6]; subst.
    destruct (IH l' size) as [I1 I2]; [constructor; [intros X; apply N1; cbn; auto|exact N6]|assumption|].
    cbn [named]. split.
    + constructor.
      * cbn [assoc fst snd]. rewrite String.eqb_refl.
        rewrite (proj2 (String.eqb_neq (fentry S f) (fname S f))) by (intros X; apply N3; cbn; left; exact X).
        rewrite String.eqb_refl. auto.
      * clear -I1 N3 N5. unfold binds in *. revert I1 N3 N5. generalize (named S tl l' size). intros e I1.
        induction I1 as [|g [o' l''] tl es (A & B & C) _ IH]; intros N3 N5; [constructor|].
        cbn [flat_map app] in N3, N5. constructor.
        -- cbn [assoc].
           rewrite (proj2 (String.eqb_neq (fname S g) (fname S f))) by (intros X; apply N3; cbn; right; left; auto).
           rewrite (proj2 (String.eqb_neq (fname S g) (fentry S f))) by (intros X; apply N5; cbn; left; auto).
           rewrite (proj2 (String.eqb_neq (fentry S g) (fname S f))) by (intros X; apply N3; cbn; right; right; left; auto).
           rewrite (proj2 (String.eqb_neq (fentry S g) (fentry S f))) by (intros X; apply N5; cbn; right; left; auto).
           auto.
        -- apply IH.
           ++ intros X. apply N3. cbn in X |- *. destruct X as [X|X]; auto.
           ++ intros X. apply N5. cbn. auto.
    + cbn [assoc].
      rewrite (proj2 (String.eqb_neq "size" (fname S f))) by (intros X; apply N1; cbn; left; auto).
      rewrite (proj2 (String.eqb_neq "size" (fentry S f))) by (intros X; apply N1; cbn; right; left; auto).
      exact I2.
Qed.
Lemma tails_cons f fs : tails (f :: fs) = if is_tail f then f :: tails fs else tails fs.
Proof. reflexivity. Qed.
Lemma tail_names_cons S f fs : tail_names S (f :: fs) = if is_tail f then fname S f :: fentry S f :: tail_names S fs else tail_names S fs.
Proof. unfold tail_names. rewrite tails_cons. destruct (is_tail f); reflexivity. Qed.
Lemma legal_kind f : legal f -> exists k, kind f = Some k.
Proof. intros [(k & H & _) _]. eauto. Qed.

Definition has_arr (rest : list fdecl) : Prop := exists f, In f rest /\ kind f = Some FtVarlenArray.
Lemma lengths_cons S f rest : lengths_visible S (f :: rest) -> lengths_visible S rest.
Proof.
  intros H d g r E K X. apply (H (f :: d) g r); [now rewrite E|exact K|]. rewrite tail_names_cons. destruct (is_tail f); cbn; auto.
Qed.
Lemma lengths_kept S f rest : lengths_visible S (f :: rest) -> has_arr rest -> is_tail f = true -> "lengths"%string <> fname S f /\ "lengths"%string <> fentry S f.
Proof.
  intros H (g & Hg & K) T. apply in_split in Hg. destruct Hg as (d & r & ->).
  assert (X := H (f :: d) g r eq_refl K). rewrite tail_names_cons, T in X. cbn [In] in X. split; intros E; apply X; auto.
Qed.

(** ** calculate_layout *)
Lemma lengths_sim S fs a : NoDup (map (fname S) fs) -> forall rest, incl rest fs ->
  sim eq (mapM (fun x => f <- header_fty S (x_groups fs) x ;; load (wrapping_add a (tk_off S x)) (f_size f) (f_align f))
            (map (fname S) (filter (kind_is FtLength) rest)))
    (load_ctrls (flds_of S (ctrl_names S fs) rest) a).
Proof.
  intros Hn. unfold load_ctrls. induction rest as [|f rest IH]; intros Hi; [apply sim_refl|].
  assert (Hr : incl rest fs) by (intros x Hx; apply Hi; right; exact Hx). specialize (IH Hr).
  assert (Hf : In f fs) by (apply Hi; left; reflexivity).
  cbn [filter flds_of]. destruct (kind_is FtLength f) eqn:E.
  - apply kind_is_spec in E. rewrite E. cbn [map mapM ctrl_fields]. rewrite (x_header_fty S fs f) by auto.
    apply sim_same. intros v. apply (sim_bind eq); [exact IH|]. intros ? vs ->. apply sim_refl.
  - destruct (kind f) as [[]|] eqn:K; cbn [ctrl_fields]; try exact IH. exfalso. apply kind_is_spec in K. congruence.
Qed.

Definition env_ok (S : tokens) (tl : list fdecl) (e : env) (cs : list (list cell)) (e' : env) (q : list (N * lay) * N) : Prop :=
  binds S tl (fst q) e' /\ assoc "size"%string e' = Some (RNum (snd q)) /\
  forall x, x <> "size"%string -> ~ In x (flat_map (fun f => [fname S f; fentry S f]) tl) -> assoc x e' = assoc x e.

Lemma env_ok_cons S f tl e cs o v sz e' q l :
  NoDup ("size"%string :: fname S f :: fentry S f :: flat_map (fun f => [fname S f; fentry S f]) tl) ->
  v = entry_val f l -> entry_ok f (o, l) ->
  env_ok S tl (bind_cat e (fname S f) (fentry S f) (o, v, sz)) cs e' q ->
  env_ok S (f :: tl) e cs e' ((o, l) :: fst q, snd q).
Proof.
  intros Hn -> Hok (B & Hs & Hf). inversion Hn as [|? ? N1 N2]; subst. inversion N2 as [|? ? N3 N4]; subst. inversion N4 as [|? ? N5 N6]; subst.
  cbn [In] in N1, N3.
  assert (D : String.eqb (fentry S f) (fname S f) = false) by (apply String.eqb_neq; intros X; apply N3; left; exact X).
  repeat split.
  - constructor; [|exact B]. cbn [fst snd]. repeat split; auto.
    + rewrite Hf by tauto || (intros X; apply N1; left; congruence). unfold bind_cat. cbn [assoc fst snd]. now rewrite String.eqb_refl.
    + rewrite Hf by tauto || (intros X; apply N1; right; left; congruence). unfold bind_cat. cbn [assoc fst snd]. now rewrite D, String.eqb_refl.
  - exact Hs.
  - intros x Hx Hi. cbn [flat_map app In] in Hi. rewrite Hf by tauto. apply bind_cat_other; [| |exact Hx]; intros X; apply Hi; auto.
Qed.

Lemma lets_fast_sim S fs a cs : NoDup (tail_names S fs) -> Forall legal fs ->
  forall rest, incl rest fs -> forall e size,
  NoDup ("size"%string :: tail_names S rest) -> lengths_visible S rest ->
  assoc "size"%string e = Some (RNum size) -> (has_arr rest -> assoc "lengths"%string e = Some (RTup cs)) ->
  sim (env_ok S (tails rest) e cs)
    (lets_fast S (x_groups fs) a (map (fname S) (tails rest)) (map (fentry S) (tails rest)) (map x_cat (tails rest)) e)
    (calc_tail (flds_of S (ctrl_names S fs) rest) cs a size).
Proof.
  intros Hn HL. induction rest as [|f rest IH]; intros Hi e size Hd Hlen Hs Hl.
  - cbn. apply sim_ret. repeat split; auto. constructor.
  - assert (Hr : incl rest fs) by (intros x Hx; apply Hi; right; exact Hx). specialize (IH Hr).
    assert (Hf : In f fs) by (apply Hi; left; reflexivity).
    assert (Lf : legal f) by (rewrite Forall_forall in HL; auto). apply legal_kind in Lf. destruct Lf as (k & K).
    rewrite tail_names_cons in Hd. rewrite tails_cons. cbn [flds_of].
    assert (T : is_tail f = match k with FtVarlen | FtVarlenArray => true | _ => false end) by (unfold is_tail, kind_is; rewrite K; destruct k; reflexivity).
    rewrite T in *. rewrite K.
    assert (G : forall (q : N * rv * N), (k = FtVarlen \/ k = FtVarlenArray) ->
       assoc "size"%string (bind_cat e (fname S f) (fentry S f) q) = Some (RNum (snd q)) /\
       (has_arr rest -> assoc "lengths"%string (bind_cat e (fname S f) (fentry S f) q) = Some (RTup cs))).
    { intros q Hk.
      assert (Hd' : NoDup ("size"%string :: fname S f :: fentry S f :: tail_names S rest)) by (destruct Hk as [-> | ->]; exact Hd).
      assert (T' : is_tail f = true) by (rewrite T; destruct Hk as [-> | ->]; reflexivity).
      inversion Hd' as [|? ? N1 _]; subst. cbn [In] in N1. split.
      - unfold bind_cat. cbn [assoc].
        rewrite (proj2 (String.eqb_neq "size" (fname S f))) by (intros X; apply N1; auto).
        rewrite (proj2 (String.eqb_neq "size" (fentry S f))) by (intros X; apply N1; auto). reflexivity.
      - intros HA. destruct (lengths_kept S f rest Hlen HA T') as [X1 X2].
        rewrite bind_cat_other; [|exact X1|exact X2|discriminate]. apply Hl. destruct HA as (y & Hy & Ky). exists y. split; [right; exact Hy|exact Ky]. }
    assert (Hd2 : NoDup ("size"%string :: tail_names S rest)).
    { destruct k; try exact Hd; inversion Hd as [|? ? N1 N2]; inversion N2 as [|? ? N3 N4]; inversion N4; subst; constructor; auto; intros X; apply N1; cbn; auto. }
    assert (Hl2 : lengths_visible S rest) by (eapply lengths_cons; exact Hlen).
    assert (Hl3 : has_arr rest -> assoc "lengths"%string e = Some (RTup cs)) by (intros (y & Hy & Ky); apply Hl; exists y; split; [right; exact Hy|exact Ky]).
    destruct k; cbn [calc_tail]; try (apply IH; assumption).
    + cbn [map lets_fast]. unfold x_cat at 1, pick. rewrite K. cbn [run_fast]. unfold get_num. rewrite Hs.
      unfold cat_field_fast.
      apply sim_assoc_l. change (bind (ret size) ?h) with (h size). apply sim_assoc_l. apply sim_assoc_l.
      apply sim_same. intros _. apply sim_assoc_l. apply sim_same. intros l.
      change (bind (ret ?v) ?h) with (h v). cbn [fst snd]. change (bind (ret ?v) ?h) with (h v). cbv beta.
      match goal with |- context [bind_cat e _ _ ?q] => destruct (G q (or_introl eq_refl)) as [G1 G2] end.
      eapply sim_map_r.
      * apply IH; [exact Hd2|exact Hl2|exact G1|exact G2].
      * intros e' q Hq. eapply env_ok_cons; [exact Hd| | |exact Hq]; [unfold entry_val; now rewrite K|intros X; congruence].
    + cbn [map lets_fast]. unfold x_cat at 1, pick. rewrite K. cbn [run_fast]. unfold get_num, get_tup. rewrite Hs, Hl by (exists f; split; [left; reflexivity|exact K]).
      apply sim_assoc_l. change (bind (ret cs) ?h) with (h cs). cbv beta.
      rewrite (x_call_len S fs f cs Hn Hf K). apply sim_assoc_l. apply sim_same. intros n0.
      apply sim_assoc_l. change (bind (ret ?v) ?h) with (h v). cbv beta.
      unfold cat_array_field_fast. change (bind (ret ?v) ?h) with (h v). cbv beta.
      match goal with |- context [bind_cat e _ _ ?q] => destruct (G q (or_intror eq_refl)) as [G1 G2] end.
      eapply sim_map_r.
      * apply IH; [exact Hd2|exact Hl2|exact G1|exact G2].
      * intros e' q Hq. eapply env_ok_cons; [exact Hd| | |exact Hq]; [unfold entry_val; now rewrite K|intros _; eexists; reflexivity].
Qed.

(** calculate_layout of the generated code computes the layout of the struct type. *)
Theorem C49_calculate_layout : forall S fs g a w, parse_fields fs = Some g -> names_ok S fs ->
  gen_calculate_layout S g a w = (l <- calc_layout (struct_ty S fs) a ;; ret (named_layout S fs l)) w.
Proof.
  intros S fs g a w Hp (Hn1 & Hn2 & Hn3 & _). destruct (accepted _ _ Hp) as [HL ->]. revert w. apply sim_eq.
  unfold gen_calculate_layout, gen_lengths. rewrite x_len_names, x_var_names, x_lay_names. cbn [struct_ty calc_layout].
  change (g_cat_fast (x_groups fs)) with (map x_cat (tails fs)).
  apply sim_assoc_r. apply (sim_bind eq).
  - apply lengths_sim; [exact Hn1|apply incl_refl].
  - intros cs ? <-. apply sim_assoc_r. eapply sim_bind.
    + apply lets_fast_sim; [inversion Hn2; assumption|exact HL|apply incl_refl|exact Hn2|exact Hn3|reflexivity|intros _; reflexivity].
    + intros e [es sz] (B & Hs & _). cbn [fst snd] in *. change (bind (ret ?v) ?h) with (h v). cbn [named_layout].
      apply eq_sim. exact (lay_lit_eq S (tails fs) es sz e B Hs).
Qed.

(** ALIGN and NEEDS_VDROP are those of the struct type. *)
Lemma x_falign S cn fs : Forall legal fs ->
  map (fun k => match k with GAlign t => valign (tk_vty S t) | GAlignOf t => f_align (tk_fty S t) end) (map x_align (tails fs)) = falign (flds_of S cn fs).
Proof.
  induction 1 as [|f fs L _ IH]; [reflexivity|]. apply legal_kind in L. destruct L as (k & K).
  rewrite tails_cons. unfold is_tail, kind_is. rewrite K. cbn [flds_of]. rewrite K.
  destruct k; cbn [orb map falign]; try exact IH; f_equal; try exact IH; unfold x_align, pick; rewrite K; reflexivity.
Qed.
Theorem C49_constants : forall S fs g, parse_fields fs = Some g ->
  gen_align S g = valign (struct_ty S fs) /\ gen_needs_vdrop S g = needs_vdrop (struct_ty S fs).
Proof.
  intros S fs g Hp. destruct (accepted _ _ Hp) as [HL ->]. split.
  - unfold gen_align. cbn [struct_ty valign]. f_equal. f_equal. change (g_align (x_groups fs)) with (map x_align (tails fs)). now apply x_falign.
  - unfold gen_needs_vdrop. cbn [struct_ty needs_vdrop x_groups g_needs]. unfold struct_flds. generalize (ctrl_names S fs). intros cn. clear Hp.
    induction HL as [|f fs' L _ IH]; [reflexivity|]. apply legal_kind in L. destruct L as (k & K).
    cbn [map existsb flds_of]. unfold x_needs at 1, pick. rewrite K. destruct k; cbn [fneeds]; rewrite IH; reflexivity.
Qed.

(** ** vdrop *)
Lemma drop_sim S fs a nl : NoDup (map (fname S) fs) -> Forall legal fs ->
  forall rest es, incl rest fs -> binds S (tails rest) es nl ->
  sim eq (for_each (run_drop S (x_groups fs) a nl) (map x_drop rest)) (vdrop_flds (flds_of S (ctrl_names S fs) rest) a es).
Proof.
  intros Hn HL. induction rest as [|f rest IH]; intros es Hi Hb; [cbn; apply sim_refl|].
  assert (Hr : incl rest fs) by (intros x Hx; apply Hi; right; exact Hx).
  assert (Hf : In f fs) by (apply Hi; left; reflexivity).
  assert (Lf : legal f) by (rewrite Forall_forall in HL; auto). apply legal_kind in Lf. destruct Lf as (k & K).
  rewrite tails_cons in Hb. unfold is_tail, kind_is in Hb. rewrite K in Hb. cbn [map for_each flds_of]. rewrite K. unfold x_drop at 1, pick. rewrite K.
  destruct k; cbn [orb] in Hb.
  - cbn [run_drop]. change (render S (IName (fd_name f))) with (fname S f). rewrite (x_header_fty S fs f) by auto.
    cbn [vdrop_flds]. change (bind (ret ?v) ?h) with (h v). cbv beta. apply sim_same. intros _. apply IH; auto.
  - cbn [run_drop]. change (render S (IName (fd_name f))) with (fname S f). rewrite (x_header_fty S fs f) by auto.
    cbn [vdrop_flds]. change (bind (ret ?v) ?h) with (h v). cbv beta. apply sim_same. intros _. apply IH; auto.
  - unfold binds in Hb. inversion Hb as [|? [o l] ? es' (A & B & C) Hb']; subst. cbn [run_drop vdrop_flds].
    change (render S (IName (fd_name f))) with (fname S f).
    replace (render S (ILayout (fd_name f))) with (fentry S f) by (unfold fentry; rewrite K; reflexivity).
    unfold get_num, get_lay. rewrite A, B. unfold entry_val. rewrite K. cbn [fst snd].
    change (bind (ret ?v) ?h) with (h v). cbv beta. change (bind (ret ?v) ?h) with (h v). cbv beta.
    apply sim_assoc_l. apply sim_same. intros _. apply sim_same. intros _. apply IH; auto.
  - unfold binds in Hb. inversion Hb as [|? [o l] ? es' (A & B & C) Hb']; subst. destruct (C K) as (n & Hn'). cbn [snd] in Hn'. subst l. cbn [run_drop vdrop_flds].
    change (render S (IName (fd_name f))) with (fname S f).
    replace (render S (ILen (fd_name f))) with (fentry S f) by (unfold fentry; rewrite K; reflexivity).
    unfold get_num. rewrite A, B. unfold entry_val. rewrite K. cbn [fst snd lay_size].
    change (bind (ret ?v) ?h) with (h v). cbv beta. change (bind (ret ?v) ?h) with (h v). cbv beta.
    apply sim_same. intros _. apply IH; auto.
Qed.
Theorem C49_vdrop : forall S fs g a l w, parse_fields fs = Some g -> names_ok S fs -> layout_of fs l ->
  gen_vdrop S g a (named_layout S fs l) w = vdrop (struct_ty S fs) a l w.
Proof.
  intros S fs g a l w Hp (Hn1 & Hn2 & _ & _) (size & es & -> & Hs). destruct (accepted _ _ Hp) as [HL ->]. revert w. apply sim_eq.
  cbn [struct_ty vdrop named_layout]. destruct (named_binds S (tails fs) es size Hn2 Hs) as [B _].
  apply drop_sim; auto. apply incl_refl.
Qed.

(** The layouts the struct type computes are layouts of this struct. *)
Lemma calc_tail_shape S cn a cs : forall fs, Forall legal fs -> forall size w q w',
  calc_tail (flds_of S cn fs) cs a size w = Ok q w' -> Forall2 entry_ok (tails fs) (fst q).
Proof.
  induction 1 as [|f fs L _ IH]; intros size w q w' H.
  - cbn in H. injection H as <- _. constructor.
  - apply legal_kind in L. destruct L as (k & K). rewrite tails_cons. unfold is_tail, kind_is. rewrite K. cbn [flds_of] in H. rewrite K in H.
    destruct k; cbn [calc_tail orb] in *; try (eapply IH; exact H).
    + unfold bind in H. destruct (check_ref _ _ _ w) as [? w1|?|?]; try discriminate.
      destruct (calc_layout _ _ w1) as [l w2|?|?]; try discriminate.
      destruct (calc_tail _ _ _ _ w2) as [q' w3|?|?] eqn:E; try discriminate. injection H as <- _. cbn [fst].
      constructor; [intros X; congruence|]. eapply IH; exact E.
    + unfold cat_array_field_fast, bind in H. destruct (len_call _ w) as [n0 w1|?|?]; try discriminate. destruct (calc_tail _ _ _ _ w1) as [q' w3|?|?] eqn:E; try discriminate. injection H as <- _. cbn [fst].
      constructor; [intros X; eexists; reflexivity|]. eapply IH; exact E.
Qed.
Theorem C49_layouts : forall S fs g a w l w', parse_fields fs = Some g ->
  calc_layout (struct_ty S fs) a w = Ok l w' -> layout_of fs l.
Proof.
  intros S fs g a w l w' Hp H. destruct (accepted _ _ Hp) as [HL _]. cbn [struct_ty calc_layout] in H. unfold bind in H.
  destruct (load_ctrls _ _ w) as [cs w1|?|?]; try discriminate. destruct (calc_tail _ _ _ _ w1) as [q w2|?|?] eqn:E; try discriminate.
  injection H as <- _. eexists _, _. split; [reflexivity|]. eapply calc_tail_shape; eassumption.
Qed.

(** ** refs *)
Lemma refs_sim S fs a nl : NoDup (map (fname S) fs) -> Forall legal fs ->
  forall rest es, incl rest fs -> binds S (tails rest) es nl ->
  sim (fun r vs => r = combine (map (fname S) rest) vs /\ length vs = length rest)
    (run_refs S (x_groups fs) a nl (combine (map (fname S) rest) (combine (map x_ref rest) (map x_ref_ty rest))))
    (view_flds (flds_of S (ctrl_names S fs) rest) a es).
Proof.
  intros Hn HL. induction rest as [|f rest IH]; intros es Hi Hb; [cbn; apply sim_ret; auto|].
  assert (Hr : incl rest fs) by (intros x Hx; apply Hi; right; exact Hx).
  assert (Hf : In f fs) by (apply Hi; left; reflexivity).
  assert (Lf : legal f) by (rewrite Forall_forall in HL; auto). apply legal_kind in Lf. destruct Lf as (k & K).
  rewrite tails_cons in Hb. unfold is_tail, kind_is in Hb. rewrite K in Hb. cbn [map combine run_refs flds_of]. rewrite K. unfold x_ref at 1, x_ref_ty at 1, pick. rewrite K.
  assert (Hx : forall (v : vval) r (vs : list vval), r = combine (map (fname S) rest) vs /\ length vs = length rest ->
    (fname S f, v) :: r = combine (fname S f :: map (fname S) rest) (v :: vs) /\ length (v :: vs) = length (f :: rest)).
  { intros v r vs [-> El]. cbn. auto. }
  destruct k; cbn [orb] in Hb.
  - cbn [run_ref]. change (render S (IName (fd_name f))) with (fname S f). rewrite (x_header_fty S fs f) by auto.
    cbn [view_flds]. change (bind (ret ?v) ?h) with (h v). cbv beta. apply sim_assoc_l. apply sim_same. intros bs.
    change (bind (ret ?v) ?h) with (h v). cbv beta.
    eapply sim_bind; [apply IH; [auto|exact Hb]|]. intros r vs Hq. apply sim_ret. apply Hx, Hq.
  - cbn [run_ref]. change (render S (IName (fd_name f))) with (fname S f). rewrite (x_header_fty S fs f) by auto.
    cbn [view_flds]. change (bind (ret ?v) ?h) with (h v). cbv beta. apply sim_assoc_l. apply sim_same. intros bs.
    change (bind (ret ?v) ?h) with (h v). cbv beta.
    eapply sim_bind; [apply IH; [auto|exact Hb]|]. intros r vs Hq. apply sim_ret. apply Hx, Hq.
  - unfold binds in Hb. inversion Hb as [|? [o l] ? es' (A & B & C) Hb']; subst. cbn [run_ref view_flds].
    change (render S (IName (fd_name f))) with (fname S f).
    unfold get_num. rewrite A. cbn [fst snd].
    change (bind (ret ?v) ?h) with (h v). cbv beta.
    apply sim_assoc_l. apply sim_same. intros _. apply sim_same. intros v.
    eapply sim_bind; [apply IH; [auto|exact Hb']|]. intros r vs Hq. apply sim_ret. apply Hx, Hq.
  - unfold binds in Hb. inversion Hb as [|? [o l] ? es' (A & B & C) Hb']; subst. destruct (C K) as (n & Hn'). cbn [snd] in Hn'. subst l. cbn [run_ref view_flds].
    change (render S (IName (fd_name f))) with (fname S f).
    replace (render S (ILen (fd_name f))) with (fentry S f) by (unfold fentry; rewrite K; reflexivity).
    unfold get_num. rewrite A, B. unfold entry_val. rewrite K. cbn [fst snd lay_size].
    change (bind (ret ?v) ?h) with (h v). cbv beta. change (bind (ret ?v) ?h) with (h v). cbv beta.
    apply sim_assoc_l. apply sim_same. intros xs. change (bind (ret ?v) ?h) with (h v). cbv beta.
    eapply sim_bind; [apply IH; [auto|exact Hb']|]. intros r vs Hq. apply sim_ret. apply Hx, Hq.
Qed.
(** A computation preceded by the generated calculate_layout, against the one of the type. *)
Lemma gen_layout_sim S fs a : Forall legal fs -> names_ok S fs ->
  sim (fun nl l => nl = named_layout S fs l /\ layout_of fs l) (gen_calculate_layout S (x_groups fs) a) (calc_layout (struct_ty S fs) a).
Proof.
  intros HL Hok w.
  assert (Hp : parse_fields fs = Some (x_groups fs)) by (now apply C47_fields_grouped).
  rewrite (C49_calculate_layout S fs _ a w Hp Hok). unfold bind.
  destruct (calc_layout (struct_ty S fs) a w) as [l w'|w'|u] eqn:E; cbn; auto. repeat split; auto.
  eapply C49_layouts; eassumption.
Qed.
Theorem C49_refs : forall S fs g a w, parse_fields fs = Some g -> names_ok S fs ->
  gen_refs S g a w =
  (v <- view (struct_ty S fs) a ;; match v with VRec vs => ret (combine (map (fname S) fs) vs) | _ => undef UType end) w.
Proof.
  intros S fs g a w Hp Hok. destruct (accepted _ _ Hp) as [HL ->]. revert w. apply sim_eq.
  unfold gen_refs. cbn [struct_ty view]. fold (struct_ty S fs). apply sim_assoc_r.
  eapply sim_bind; [apply gen_layout_sim; assumption|]. intros nl l (-> & size & es & -> & Hs). cbn [named_layout].
  apply sim_assoc_r. destruct Hok as (Hn1 & Hn2 & _).
  destruct (named_binds S (tails fs) es size Hn2 Hs) as [B _].
  rewrite x_all_names. cbn [x_groups g_ref_field g_ref_ty].
  eapply sim_map_r; [apply refs_sim; [exact Hn1|exact HL|apply incl_refl|exact B]|].
  intros r vs [-> _]. reflexivity.
Qed.

(** ** muts *)
Lemma mut_sim S fs a nl p : NoDup (map (fname S) fs) -> Forall legal fs ->
  forall rest es j f, incl rest fs -> binds S (tails rest) es nl -> nth_error rest j = Some f ->
  sim eq
    match x_mut f, x_mut_ty f with
    | MRef i, MtMut _ =>
        match p with
        | PHere => f <- header_fty S (x_groups fs) (render S i) ;; ret (wrapping_add a (tk_off S (render S i)), f)
        | _ => undef UType
        end
    | MField i, MtPin t =>
        off <- get_num nl (render S i) ;;
        check_ref (wrapping_add a off) (head_size (tk_vty S t)) (head_align (tk_vty S t)) ;;;
        locate (tk_vty S t) (wrapping_add a off) p
    | MArray i l, MtSlice t =>
        match p with
        | PIdx k => off <- get_num nl (render S i) ;; n <- get_num nl (render S l) ;; elem_mut (tk_fty S t) a off n k
        | _ => undef UType
        end
    | _, _ => undef UType
    end
    (locate_fld (flds_of S (ctrl_names S fs) rest) a es j p).
Proof.
  intros Hn HL. induction rest as [|f0 rest IH]; intros es j f Hi Hb Hj; [destruct j; discriminate|].
  assert (Hr : incl rest fs) by (intros x Hx; apply Hi; right; exact Hx).
  assert (Hf : In f0 fs) by (apply Hi; left; reflexivity).
  assert (Lf : legal f0) by (rewrite Forall_forall in HL; auto). apply legal_kind in Lf. destruct Lf as (k & K).
  rewrite tails_cons in Hb. unfold is_tail, kind_is in Hb. rewrite K in Hb. cbn [flds_of]. rewrite K.
  destruct j as [|j]; cbn [nth_error] in Hj.
  - injection Hj as <-. unfold x_mut, x_mut_ty, pick. rewrite K.
    destruct k; cbn [orb] in Hb; cbn [locate_fld].
    + destruct p; try apply sim_refl. change (render S (IName (fd_name f0))) with (fname S f0). rewrite (x_header_fty S fs f0) by auto. apply sim_refl.
    + apply sim_refl.
    + unfold binds in Hb. inversion Hb as [|? [o l] ? es' (A & B & C) Hb']; subst.
      change (render S (IName (fd_name f0))) with (fname S f0). unfold get_num. rewrite A. apply sim_refl.
    + unfold binds in Hb. inversion Hb as [|? [o l] ? es' (A & B & C) Hb']; subst. destruct (C K) as (n & Hn'). cbn [snd] in Hn'. subst l.
      change (render S (IName (fd_name f0))) with (fname S f0).
      replace (render S (ILen (fd_name f0))) with (fentry S f0) by (unfold fentry; rewrite K; reflexivity).
      unfold get_num. rewrite A, B. unfold entry_val. rewrite K. apply sim_refl.
  - destruct k; cbn [orb] in Hb; cbn [locate_fld]; try (apply IH; assumption);
      unfold binds in Hb; inversion Hb as [|? [o l] ? es' (A & B & C) Hb']; subst; apply IH; assumption.
Qed.
Theorem C49_muts : forall S fs g a j f p w, parse_fields fs = Some g -> names_ok S fs -> nth_error fs j = Some f ->
  gen_mut S g a (fname S f) p w = locate (struct_ty S fs) a (PFld j p) w.
Proof.
  intros S fs g a j f p w Hp Hok Hj. destruct (accepted _ _ Hp) as [HL ->]. revert w. apply sim_eq.
  unfold gen_mut. cbn [struct_ty locate]. fold (struct_ty S fs).
  eapply sim_bind; [apply gen_layout_sim; assumption|]. intros nl l (-> & size & es & -> & Hs). cbn [named_layout].
  destruct Hok as (Hn1 & Hn2 & _). destruct (named_binds S (tails fs) es size Hn2 Hs) as [B _].
  assert (Hf : In f fs) by (eapply nth_error_In; exact Hj).
  rewrite x_all_names. cbn [x_groups g_mut_field g_mut_ty].
  rewrite (assoc_map (fname S) x_mut fs f Hn1 Hf), (assoc_map (fname S) x_mut_ty fs f Hn1 Hf). unfold get.
  change (bind (ret ?v) ?h) with (h v). cbv beta. change (bind (ret ?v) ?h) with (h v). cbv beta.
  apply mut_sim; auto. apply incl_refl.
Qed.

(** ** calculate_layout_cautious *)
Lemma self_assoc S fs is_ k f i : NoDup (map (fname S) fs) -> length is_ = length fs -> nth_error fs k = Some f -> nth_error is_ k = Some i ->
  assoc (fname S f) (named_init S fs is_) = Some i.
Proof.
  intros Hn Hl Hf Hi. unfold named_init. apply assoc_in.
  - rewrite map_fst_combine; [exact Hn|]. now rewrite map_length.
  - clear Hn. revert is_ k Hl Hf Hi. induction fs as [|g fs IH]; intros [|x is_] [|k] Hl Hf Hi; try discriminate; cbn in *.
    + left. congruence.
    + right. eapply IH; eauto.
Qed.
(** [rest], [irest]: the remaining fields and their initializers. *)
Definition sfx (S : tokens) (fs : list fdecl) (self : self_init) (rest : list fdecl) (irest : list init) : Prop :=
  Forall2 (fun f i => assoc (fname S f) self = Some i /\ init_ok f i /\ In f fs) rest irest.
Lemma sfx_all S fs is_ : NoDup (map (fname S) fs) -> Forall2 init_ok fs is_ -> sfx S fs (named_init S fs is_) fs is_.
Proof.
  intros Hn H.
  assert (G : forall d di r ri, fs = d ++ r -> is_ = di ++ ri -> length d = length di -> Forall2 init_ok r ri -> sfx S fs (named_init S fs is_) r ri).
  { intros d di r ri Ef Ei El Hr. revert d di Ef Ei El. induction Hr as [|f i r ri Hfi _ IH]; intros d di Ef Ei El; [constructor|].
    assert (Hk : nth_error fs (length d) = Some f) by (rewrite Ef, nth_error_app2, Nat.sub_diag by lia; reflexivity).
    constructor.
    - repeat split; auto.
      + apply (self_assoc S fs is_ (length d)); auto.
        * symmetry. clear -H. induction H; cbn; congruence.
        * rewrite Ei, El, nth_error_app2, Nat.sub_diag by lia. reflexivity.
      + eapply nth_error_In; exact Hk.
    - apply (IH (d ++ [f]) (di ++ [i])).
      + now rewrite <- app_assoc.
      + now rewrite <- app_assoc.
      + rewrite !app_length. cbn. lia. }
  apply (G [] [] fs is_); auto.
Qed.
Lemma self_ctrls S fs self cn : forall rest irest, sfx S fs self rest irest -> Forall legal rest ->
  forall w, mapM (self_val self) (map (fname S) (filter (kind_is FtLength) rest)) w = Ok (init_ctrls (flds_of S cn rest) irest) w.
Proof.
  induction 1 as [|f i rest irest (A & B & _) _ IH]; intros L w; [reflexivity|]. inversion L as [|? ? Lf L']; subst.
  apply legal_kind in Lf. destruct Lf as (k & K). unfold init_ok in B. rewrite K in B.
  cbn [filter]. unfold kind_is at 1. rewrite K. cbn [flds_of]. rewrite K.
  destruct k; cbn [init_ctrls]; try (destruct B as (v & ->)); try (apply IH; assumption).
  cbn [map mapM]. unfold bind at 1. unfold self_val at 1. rewrite A. cbn. unfold bind. rewrite IH by assumption. reflexivity.
Qed.

Definition env_ok_opt (S : tokens) (tl : list fdecl) (e : env) (cs : list (list cell)) (e' : option env) (q : option (list (N * lay) * N)) : Prop :=
  match e', q with
  | Some e', Some q => env_ok S tl e cs e' q
  | None, None => True
  | _, _ => False
  end.
Lemma lets_cautious_sim S fs self cs : NoDup (tail_names S fs) -> Forall legal fs ->
  forall rest irest, sfx S fs self rest irest -> forall e size,
  NoDup ("size"%string :: tail_names S rest) -> lengths_visible S rest ->
  assoc "size"%string e = Some (RNum size) -> (has_arr rest -> assoc "lengths"%string e = Some (RTup cs)) ->
  sim (env_ok_opt S (tails rest) e cs)
    (lets_cautious S (x_groups fs) self (map (fname S) (tails rest)) (map (fentry S) (tails rest)) (map x_cat (tails rest)) e)
    (init_tail (flds_of S (ctrl_names S fs) rest) irest cs size).
Proof.
  intros Hn HL. induction 1 as [|f i rest irest (Ha & Hio & Hf) _ IH]; intros e size Hd Hlen Hs Hl.
  - cbn. apply sim_ret. repeat split; auto. constructor.
  - assert (Lf : legal f) by (rewrite Forall_forall in HL; auto). apply legal_kind in Lf. destruct Lf as (k & K).
    rewrite tail_names_cons in Hd. rewrite tails_cons. cbn [flds_of].
    assert (T : is_tail f = match k with FtVarlen | FtVarlenArray => true | _ => false end) by (unfold is_tail, kind_is; rewrite K; destruct k; reflexivity).
    rewrite T in *. rewrite K. unfold init_ok in Hio. rewrite K in Hio.
    assert (G : forall (q : N * rv * N), (k = FtVarlen \/ k = FtVarlenArray) ->
       assoc "size"%string (bind_cat e (fname S f) (fentry S f) q) = Some (RNum (snd q)) /\
       (has_arr rest -> assoc "lengths"%string (bind_cat e (fname S f) (fentry S f) q) = Some (RTup cs))).
    { intros q Hk.
      assert (Hd' : NoDup ("size"%string :: fname S f :: fentry S f :: tail_names S rest)) by (destruct Hk as [-> | ->]; exact Hd).
      assert (T' : is_tail f = true) by (rewrite T; destruct Hk as [-> | ->]; reflexivity).
      inversion Hd' as [|? ? N1 _]; subst. cbn [In] in N1. split.
      - unfold bind_cat. cbn [assoc].
        rewrite (proj2 (String.eqb_neq "size" (fname S f))) by (intros X; apply N1; auto).
        rewrite (proj2 (String.eqb_neq "size" (fentry S f))) by (intros X; apply N1; auto). reflexivity.
      - intros HA. destruct (lengths_kept S f rest Hlen HA T') as [X1 X2].
        rewrite bind_cat_other; [|exact X1|exact X2|discriminate]. apply Hl. destruct HA as (y & Hy & Ky). exists y. split; [right; exact Hy|exact Ky]. }
    assert (Hd2 : NoDup ("size"%string :: tail_names S rest)).
    { destruct k; try exact Hd; inversion Hd as [|? ? N1 N2]; inversion N2 as [|? ? N3 N4]; inversion N4; subst; constructor; auto; intros X; apply N1; cbn; auto. }
    assert (Hl2 : lengths_visible S rest) by (eapply lengths_cons; exact Hlen).
    assert (Hl3 : has_arr rest -> assoc "lengths"%string e = Some (RTup cs)) by (intros (y & Hy & Ky); apply Hl; exists y; split; [right; exact Hy|exact Ky]).
    destruct k; cbn [init_tail]; try (destruct Hio as (v & ->); apply IH; assumption).
    + cbn [map lets_cautious]. unfold x_cat at 1, pick. rewrite K. cbn [run_cautious].
      change (render S (IName (fd_name f))) with (fname S f). rewrite Ha. unfold get, get_num. rewrite Hs.
      unfold cat_field_cautious.
      apply sim_assoc_l. change (bind (ret ?v) ?h) with (h v). cbv beta. apply sim_assoc_l. change (bind (ret ?v) ?h) with (h v). cbv beta.
      apply sim_assoc_l. destruct (checked_add size (valign (tk_vty S (fd_ty f)) - 1)) as [x|]; [|apply sim_ret; exact I].
      apply sim_assoc_l. apply sim_same. intros [l|]; [|apply sim_ret; exact I].
      destruct (checked_add _ (lay_size l)) as [sz|]; [|apply sim_ret; exact I].
      change (bind (ret ?v) ?h) with (h v). cbv beta. change (bind (ret ?v) ?h) with (h v). cbv beta. cbn [option_map fst snd].
      match goal with |- context [bind_cat e _ _ ?q] => destruct (G q (or_introl eq_refl)) as [G1 G2] end. cbn [snd] in G1.
      intros w. specialize (IH _ _ Hd2 Hl2 G1 G2 w). unfold bind.
      destruct (lets_cautious _ _ _ _ _ _ _ w) as [e' w1|w1|u], (init_tail _ _ _ _ w) as [q w2|w2|u']; try contradiction; try exact IH.
      destruct IH as [-> IH]. destruct e' as [e'|], q as [[es s]|]; try contradiction; cbn; auto. split; [reflexivity|]. cbn [env_ok_opt] in IH |- *.
      eapply env_ok_cons in IH; [exact IH|exact Hd|unfold entry_val; now rewrite K|intros X; congruence].
    + cbn [map lets_cautious]. unfold x_cat at 1, pick. rewrite K. cbn [run_cautious]. destruct Hio as (ai & ->).
      unfold get_num, get_tup. rewrite Hs, Hl by (exists f; split; [left; reflexivity|exact K]).
      apply sim_assoc_l. change (bind (ret cs) ?h) with (h cs). cbv beta.
      rewrite (x_call_len S fs f cs Hn Hf K). apply sim_assoc_l. apply sim_same. intros n0.
      apply sim_assoc_l. change (bind (ret ?v) ?h) with (h v). cbv beta.
      change (bind (ret ?v) ?h) with (h v). cbv beta.
      destruct (cat_array_field_cautious _ _ size) as [[[o n] sz]|]; [|apply sim_ret; exact I]. cbn [option_map fst snd].
      match goal with |- context [bind_cat e _ _ ?q] => destruct (G q (or_intror eq_refl)) as [G1 G2] end. cbn [snd] in G1.
      intros w. specialize (IH _ _ Hd2 Hl2 G1 G2 w). unfold bind.
      destruct (lets_cautious _ _ _ _ _ _ _ w) as [e' w1|w1|u], (init_tail _ _ _ _ w) as [q w2|w2|u']; try contradiction; try exact IH.
      destruct IH as [-> IH]. destruct e' as [e'|], q as [[es s]|]; try contradiction; cbn; auto. split; [reflexivity|]. cbn [env_ok_opt] in IH |- *.
      eapply env_ok_cons in IH; [exact IH|exact Hd|unfold entry_val; now rewrite K|intros _; eexists; reflexivity].
Qed.
Theorem C49_calculate_layout_cautious : forall S fs g is_ w, parse_fields fs = Some g -> names_ok S fs -> Forall2 init_ok fs is_ ->
  gen_cautious S g (named_init S fs is_) w =
  (o <- init_layout (struct_ty S fs) (IRec is_) ;; ret (option_map (named_layout S fs) o)) w.
Proof.
  intros S fs g is_ w Hp (Hn1 & Hn2 & Hn3 & _) Hi. destruct (accepted _ _ Hp) as [HL ->]. revert w. apply sim_eq.
  pose proof (sfx_all S fs is_ Hn1 Hi) as Hx.
  unfold gen_cautious. rewrite x_len_names, x_var_names, x_lay_names. cbn [struct_ty init_layout].
  change (g_cat_cautious (x_groups fs)) with (map x_cat (tails fs)).
  intros w. unfold bind at 1. unfold ctrl_names at 1. rewrite (self_ctrls S fs _ (ctrl_names S fs) fs is_ Hx HL w). revert w.
  match goal with |- forall w, match ?m w with _ => _ end => change (sim eq m
    (bind (q <- init_tail (struct_flds S fs) is_ (init_ctrls (struct_flds S fs) is_) (tk_hs S) ;;
          match q with None => ret None | Some (es, size) => ret (Some (LyRec size es)) end) (fun o => ret (option_map (named_layout S fs) o)))) end.
  apply sim_assoc_r. eapply sim_bind.
  - apply lets_cautious_sim; [inversion Hn2; assumption|exact HL|exact Hx|exact Hn2|exact Hn3|reflexivity|intros _; reflexivity].
  - intros [e|] [[es sz]|] Hq; cbn [env_ok_opt] in Hq; try contradiction; [|apply sim_ret; reflexivity].
    destruct Hq as (B & Hs & _). cbn [fst snd] in *.
    change (bind (ret ?v) ?h) with (h v). cbv beta. cbn [option_map named_layout].
    apply eq_sim. intros w. unfold bind. rewrite (lay_lit_eq S (tails fs) es sz e B Hs). reflexivity.
Qed.
Lemma init_tail_shape S cn cs : forall fs, Forall legal fs -> forall is_ size w q w',
  init_tail (flds_of S cn fs) is_ cs size w = Ok (Some q) w' -> Forall2 entry_ok (tails fs) (fst q).
Proof.
  induction 1 as [|f fs L _ IH]; intros is_ size w q w' H.
  - cbn in H. destruct is_; [|discriminate]. injection H as <- _. constructor.
  - apply legal_kind in L. destruct L as (k & K). rewrite tails_cons. unfold is_tail, kind_is. rewrite K. cbn [flds_of] in H. rewrite K in H.
    destruct k; cbn [init_tail orb] in *.
    + destruct is_ as [|[] is_]; try discriminate. eapply IH; exact H.
    + destruct is_ as [|[] is_]; try discriminate. eapply IH; exact H.
    + destruct is_ as [|i is_]; try discriminate. destruct (checked_add size _) as [x|]; try discriminate. unfold bind in H.
      destruct (init_layout _ i w) as [[l|] w1|?|?]; try discriminate.
      destruct (checked_add _ (lay_size l)); try discriminate.
      destruct (init_tail _ is_ cs _ w1) as [[[es s]|] w2|?|?] eqn:E; try discriminate. injection H as <- _. cbn [fst].
      constructor; [intros X; congruence|]. apply (IH _ _ _ _ _ E).
    + destruct is_ as [|[] is_]; try discriminate. unfold bind in H. destruct (len_call _ w) as [n0 w1|?|?]; try discriminate.
      destruct (cat_array_field_cautious _ _ _) as [[[o n] s0]|]; try discriminate. destruct (init_tail _ is_ cs _ w1) as [[[es s]|] w2|?|?] eqn:E; try discriminate. injection H as <- _. cbn [fst].
      constructor; [intros X; eexists; reflexivity|]. apply (IH _ _ _ _ _ E).
Qed.
Theorem C49_layouts_cautious : forall S fs g is_ w l w', parse_fields fs = Some g ->
  init_layout (struct_ty S fs) (IRec is_) w = Ok (Some l) w' -> layout_of fs l.
Proof.
  intros S fs g is_ w l w' Hp H. destruct (accepted _ _ Hp) as [HL _]. cbn [struct_ty init_layout] in H. unfold bind in H.
  destruct (init_tail _ _ _ _ w) as [[[es s]|] w1|?|?] eqn:E; try discriminate. injection H as <- _.
  eexists _, _. split; [reflexivity|]. apply (init_tail_shape S _ _ fs HL _ _ _ _ _ E).
Qed.

(** ** initialize and the drop glue of Init *)
Lemma x_constraint_of S fs f : NoDup (map (fun f => "Init" ++ tk_camel S (fname S f))%string (tails fs)) -> In f fs -> is_tail f = true ->
  assoc (render S (IInit (fd_name f))) (combine (map (render S) (g_init_params (x_groups fs))) (g_constraints (x_groups fs))) = Some (x_constraint f).
Proof.
  intros Hn Hi Ht. cbn [x_groups g_init_params g_constraints]. rewrite map_map. fold (tails fs).
  apply (assoc_map (fun f => render S (IInit (fd_name f))) x_constraint).
  - exact Hn.
  - apply filter_In. auto.
Qed.
Lemma drop_rest_sim S fs self : NoDup (map (fname S) fs) -> NoDup (map (fun f => "Init" ++ tk_camel S (fname S f))%string (tails fs)) -> Forall legal fs ->
  forall rest irest, sfx S fs self rest irest ->
  sim eq (for_each (drop_self_field S (x_groups fs) self) (map (fname S) rest)) (drop_flds (flds_of S (ctrl_names S fs) rest) irest).
Proof.
  intros Hn Hc HL. induction 1 as [|f i rest irest (Ha & Hio & Hf) _ IH]; [apply sim_refl|].
  assert (Lf : legal f) by (rewrite Forall_forall in HL; auto). apply legal_kind in Lf. destruct Lf as (k & K).
  cbn [map for_each flds_of]. rewrite K. unfold init_ok in Hio. rewrite K in Hio.
  unfold drop_self_field at 1. rewrite x_all_names. change (g_init_ty (x_groups fs)) with (map x_init_ty fs).
  rewrite (assoc_map (fname S) x_init_ty fs f Hn Hf), Ha. unfold get at 1 2.
  change (bind (ret ?v) ?h) with (h v). cbv beta. change (bind (ret ?v) ?h) with (h v). cbv beta.
  unfold x_init_ty at 1, pick. rewrite K.
  destruct k; cbn [drop_flds].
  - destruct Hio as (v & ->). apply sim_same. intros _. exact IH.
  - destruct Hio as (v & ->). apply sim_same. intros _. exact IH.
  - rewrite (x_constraint_of S fs f Hc Hf) by (unfold is_tail, kind_is; rewrite K; reflexivity). unfold get, x_constraint, pick. rewrite K.
    change (bind (ret ?v) ?h) with (h v). cbv beta. apply sim_same. intros _. exact IH.
  - rewrite (x_constraint_of S fs f Hc Hf) by (unfold is_tail, kind_is; rewrite K; reflexivity). unfold get, x_constraint, pick. rewrite K.
    destruct Hio as (ai & ->). change (bind (ret ?v) ?h) with (h v). cbv beta. apply sim_same. intros _. exact IH.
Qed.
Lemma mem_spec x l : mem x l = true <-> In x l.
Proof. unfold mem. rewrite existsb_exists. split; [intros (y & H & E); apply String.eqb_eq in E; congruence|]. intros H. exists x. split; [exact H|apply String.eqb_refl]. Qed.
Lemma not_moved (l r : list string) (m : list string) : NoDup (l ++ r) -> (forall x, In x m <-> In x l) ->
  filter (fun x => negb (mem x m)) (l ++ r) = r.
Proof.
  intros Hn Hm. rewrite filter_app.
  assert (E1 : filter (fun x => negb (mem x m)) l = []).
  { assert (G : forall k, incl k l -> filter (fun x => negb (mem x m)) k = []).
    { induction k as [|x k IH]; intros Hk; [reflexivity|]. cbn [filter].
      assert (E : mem x m = true) by (apply mem_spec, Hm, Hk; left; reflexivity). rewrite E. cbn [negb]. apply IH. intros y Hy. apply Hk. right. exact Hy. }
    apply G, incl_refl. }
  rewrite E1. cbn [app].
  assert (G : forall k, (forall x, In x k -> ~ In x l) -> filter (fun x => negb (mem x m)) k = k).
  { induction k as [|x k IH]; intros Hk; [reflexivity|]. cbn [filter].
    destruct (mem x m) eqn:E.
    - exfalso. apply mem_spec in E. apply Hm in E. apply (Hk x); [left; reflexivity|exact E].
    - cbn [negb]. f_equal. apply IH. intros y Hy. apply Hk. right. exact Hy. }
  apply G. clear -Hn. induction l as [|a l IH]; intros x Hx; [intros []|]. cbn in Hn. inversion Hn; subst. intros [<-|Hi].
  - apply H1. apply in_or_app. right. exact Hx.
  - exact (IH H2 x Hx Hi).
Qed.
Lemma drop_self_sim S fs self moved d rest irest :
  NoDup (map (fname S) fs) -> NoDup (map (fun f => "Init" ++ tk_camel S (fname S f))%string (tails fs)) -> Forall legal fs ->
  fs = d ++ rest -> (forall x, In x moved <-> In x (map (fname S) d)) -> sfx S fs self rest irest ->
  sim eq (drop_self S (x_groups fs) self moved) (drop_flds (flds_of S (ctrl_names S fs) rest) irest).
Proof.
  intros Hn Hc HL Hd Hm Hx. unfold drop_self. rewrite x_all_names.
  replace (filter (fun x => negb (mem x moved)) (map (fname S) fs)) with (map (fname S) rest); [now apply drop_rest_sim|].
  rewrite Hd in Hn |- *. rewrite map_app in Hn |- *. symmetry. now apply not_moved.
Qed.
Theorem C49_drop_init : forall S fs g is_ w, parse_fields fs = Some g -> names_ok S fs -> Forall2 init_ok fs is_ ->
  drop_self S g (named_init S fs is_) [] w = drop_init (struct_ty S fs) (IRec is_) w.
Proof.
  intros S fs g is_ w Hp (Hn1 & _ & _ & Hn4) Hi. destruct (accepted _ _ Hp) as [HL ->]. revert w. apply sim_eq.
  cbn [struct_ty drop_init]. apply (drop_self_sim S fs _ [] [] fs is_); auto; [reflexivity|now apply sfx_all].
Qed.

Lemma eval_fields_sim S fs self dst nl :
  NoDup (map (fname S) fs) -> NoDup (map (fun f => "Init" ++ tk_camel S (fname S f))%string (tails fs)) -> Forall legal fs ->
  forall rest irest, sfx S fs self rest irest -> forall d es moved temps,
  fs = d ++ rest -> (forall x, In x moved <-> In x (map (fname S) d)) -> binds S (tails rest) es nl ->
  sim eq (eval_fields S (x_groups fs) self dst nl (combine (map (fname S) rest) (map x_init rest)) moved temps)
    (init_fields KStruct (flds_of S (ctrl_names S fs) rest) irest es dst temps).
Proof.
  intros Hn Hc HL. induction 1 as [|f i rest irest (Ha & Hio & Hf) Hx IH]; intros d es moved temps Hd Hm Hb.
  - cbn in Hb |- *. inversion Hb; subst. apply sim_refl.
  - assert (Lf : legal f) by (rewrite Forall_forall in HL; auto). apply legal_kind in Lf. destruct Lf as (k & K).
    assert (Hmem : mem (fname S f) moved = false).
    { destruct (mem (fname S f) moved) eqn:E; [|reflexivity]. exfalso. apply mem_spec in E. apply Hm in E.
      rewrite Hd, map_app in Hn. cbn [map] in Hn. apply NoDup_remove_2 in Hn. apply Hn. apply in_or_app. left. exact E. }
    assert (Hd' : fs = (d ++ [f]) ++ rest) by (rewrite <- app_assoc; exact Hd).
    assert (Hm' : forall x, In x (fname S f :: moved) <-> In x (map (fname S) (d ++ [f]))).
    { intros x. rewrite map_app. cbn [map In]. rewrite in_app_iff. cbn [In]. rewrite Hm. tauto. }
    rewrite tails_cons in Hb. unfold is_tail, kind_is in Hb. rewrite K in Hb.
    cbn [map combine eval_fields flds_of]. rewrite K. unfold init_ok in Hio. rewrite K in Hio.
    unfold x_init at 1, pick. rewrite K.
    assert (HU : sim eq (drop_temps temps ;;; drop_self S (x_groups fs) self (fname S f :: moved))
                  (unwind_rec KStruct temps (flds_of S (ctrl_names S fs) rest) irest)).
    { cbn [unwind_rec]. apply sim_same. intros _. apply (drop_self_sim S fs self _ (d ++ [f])); auto. }
    destruct k; cbn [orb] in Hb; change (render S (IName (fd_name f))) with (fname S f); rewrite Hmem; cbn [init_fields].
    + destruct Hio as (v & ->). unfold self_val. rewrite Ha. rewrite (x_header_fty S fs f) by auto.
      change (bind (ret ?v) ?h) with (h v). cbv beta. change (bind (ret ?v) ?h) with (h v). cbv beta.
      apply (sim_bind eq); [|intros vals ? <-; apply sim_refl]. eapply IH; eauto.
    + destruct Hio as (v & ->). unfold self_val. rewrite Ha. rewrite (x_header_fty S fs f) by auto.
      change (bind (ret ?v) ?h) with (h v). cbv beta. change (bind (ret ?v) ?h) with (h v). cbv beta.
      apply (sim_bind eq); [|intros vals ? <-; apply sim_refl]. eapply IH; eauto.
    + unfold binds in Hb. inversion Hb as [|? [o l] ? es' (A & B & C) Hb']; subst es. fold (binds S (tails rest) es' nl) in Hb'.
      replace (render S (ILayout (fd_name f))) with (fentry S f) by (unfold fentry; rewrite K; reflexivity).
      unfold get_num, get_lay, get. rewrite Ha, A, B. unfold entry_val. rewrite K. cbn [fst snd].
      change (bind (ret ?v) ?h) with (h v). cbv beta. change (bind (ret ?v) ?h) with (h v). cbv beta. change (bind (ret ?v) ?h) with (h v). cbv beta.
      rewrite (x_decl_of S fs f Hn Hf). unfold x_decl, pick. rewrite K.
      apply (sim_bind eq); [apply sim_unwind; [apply sim_refl|exact HU]|]. intros _ _ _. eapply IH; eauto.
    + unfold binds in Hb. inversion Hb as [|? [o l] ? es' (A & B & C) Hb']; subst es. fold (binds S (tails rest) es' nl) in Hb'.
      destruct (C K) as (n & Hn'). cbn [snd] in Hn'. subst l. destruct Hio as (ai & ->).
      replace (render S (ILen (fd_name f))) with (fentry S f) by (unfold fentry; rewrite K; reflexivity).
      unfold get_num, get. rewrite Ha, A, B. unfold entry_val. rewrite K. cbn [fst snd lay_size].
      change (bind (ret ?v) ?h) with (h v). cbv beta. change (bind (ret ?v) ?h) with (h v). cbv beta. change (bind (ret ?v) ?h) with (h v). cbv beta.
      rewrite (x_decl_of S fs f Hn Hf). unfold x_decl, pick. rewrite K.
      apply (sim_bind eq); [apply sim_unwind; [apply sim_refl|exact HU]|]. intros _ _ _. eapply IH; eauto.
Qed.
Theorem C49_initialize : forall S fs g is_ dst l w, parse_fields fs = Some g -> names_ok S fs -> Forall2 init_ok fs is_ -> layout_of fs l ->
  gen_initialize S g (named_init S fs is_) dst (named_layout S fs l) w = initialize (struct_ty S fs) (IRec is_) dst l w.
Proof.
  intros S fs g is_ dst l w Hp (Hn1 & Hn2 & _ & Hn4) Hi (size & es & -> & Hs). destruct (accepted _ _ Hp) as [HL ->]. revert w. apply sim_eq.
  destruct (named_binds S (tails fs) es size Hn2 Hs) as [B _].
  unfold gen_initialize. rewrite x_all_names. cbn [struct_ty initialize named_layout]. change (g_init_field (x_groups fs)) with (map x_init fs).
  apply (sim_bind eq); [|intros vals ? <-; apply sim_refl].
  eapply (eval_fields_sim S fs); [exact Hn1|exact Hn4|exact HL|now apply sfx_all|apply (eq_refl : fs = [] ++ fs)| |exact B].
  intros x. cbn. tauto.
Qed.

(** ** try_set_layout_controllers *)
Lemma ctl_drop_sim S fs lc : NoDup (map (fname S) fs) -> forall rest, incl rest (filter (kind_is FtLength) fs) -> forall news,
  Forall2 (fun f v => assoc (fname S f) lc = Some v) rest news ->
  sim eq (ctl_drop S (x_groups fs) lc (map (fname S) rest))
    (for_each (fun '(f, v) => drop_value f v) (combine (map (fun f => tk_fty S (fd_ty f)) rest) news)).
Proof.
  intros Hn. induction rest as [|f rest IH]; intros Hi news Hv; inversion Hv; subst; [apply sim_refl|].
  unfold ctl_drop in *. cbn [map for_each combine]. rewrite H1. rewrite x_len_names. change (g_len_tys (x_groups fs)) with (map fd_ty (filter (kind_is FtLength) fs)).
  unfold ctrl_names. rewrite (assoc_map (fname S) fd_ty) by (first [now apply NoDup_map_filter|apply Hi; left; reflexivity]).
  unfold get at 1 2. change (bind (ret ?v) ?h) with (h v). cbv beta. change (bind (ret ?v) ?h) with (h v). cbv beta.
  apply sim_same. intros _. rewrite x_len_names in IH. apply IH; [|assumption]. intros x Hx. apply Hi. right. exact Hx.
Qed.
Lemma ctrl_fields_of S cn fs : Forall legal fs ->
  ctrl_fields (flds_of S cn fs) = map (fun f => (tk_off S (fname S f), tk_fty S (fd_ty f))) (filter (kind_is FtLength) fs).
Proof.
  induction 1 as [|f fs L _ IH]; [reflexivity|]. apply legal_kind in L. destruct L as (k & K). cbn [flds_of filter]. unfold kind_is at 1. rewrite K.
  destruct k; cbn [ctrl_fields map]; congruence.
Qed.
Lemma len_fns_of S cn fs : Forall legal fs ->
  len_fns (flds_of S cn fs) = map (fun f cs => tk_expr S (fd_len f) (fun x => assoc x (combine cn cs))) (filter (kind_is FtVarlenArray) fs).
Proof.
  induction 1 as [|f fs L _ IH]; [reflexivity|]. apply legal_kind in L. destruct L as (k & K). cbn [flds_of filter]. unfold kind_is at 1. rewrite K.
  destruct k; cbn [len_fns map]; congruence.
Qed.
Lemma ctl_assign_sim S fs a dp lc : NoDup (map (fname S) fs) -> forall rest, incl rest (filter (kind_is FtLength) fs) -> forall news,
  Forall2 (fun f v => assoc (fname S f) lc = Some v) rest news ->
  sim eq (ctl_assign S (x_groups fs) a dp lc (map (fname S) rest))
    (set_ctrls a dp (map (fun f => (tk_off S (fname S f), tk_fty S (fd_ty f))) rest) news).
Proof.
  intros Hn. induction rest as [|f rest IH]; intros Hi news Hv; inversion Hv as [|? v ? news' E Hv']; subst; [apply sim_refl|].
  assert (Hf : In f fs /\ kind_is FtLength f = true) by (apply filter_In, Hi; left; reflexivity). destruct Hf as [Hf Hk]. apply kind_is_spec in Hk.
  assert (Hr : incl rest (filter (kind_is FtLength) fs)) by (intros x Hx; apply Hi; right; exact Hx).
  cbn [map ctl_assign set_ctrls]. rewrite (x_header_fty S fs f), E by auto. unfold get.
  change (bind (ret ?v) ?h) with (h v). cbv beta. change (bind (ret ?v) ?h) with (h v). cbv beta.
  apply sim_same. intros old. apply sim_same. intros _. apply sim_same. intros _. destruct (f_drop _ && dp old).
  - apply (sim_bind eq); [|intros; apply sim_refl]. rewrite map_map. cbn [snd]. now apply ctl_drop_sim.
  - now apply IH.
Qed.
Lemma mapM_get {A} (lc : list (string * A)) (xs : list string) (news : list A) : Forall2 (fun x v => assoc x lc = Some v) xs news -> forall w, mapM (fun x => get (assoc x lc)) xs w = Ok news w.
Proof. induction 1 as [|x v xs news E _ IH]; intros w; [reflexivity|]. cbn [mapM]. rewrite E. unfold get at 1, bind at 1, ret at 1. unfold bind. rewrite IH. reflexivity. Qed.
(** The controllers given by name, one value per controls_layout field. *)
Theorem C49_try_set : forall S fs g a dp news w, parse_fields fs = Some g -> names_ok S fs -> length news = length (ctrl_names S fs) ->
  gen_try_set S g a dp (combine (ctrl_names S fs) news) w = try_set_layout_controllers (struct_flds S fs) a dp news w.
Proof.
  intros S fs g a dp news w Hp (Hn1 & Hn2 & _ & _) Hlen. destruct (accepted _ _ Hp) as [HL ->]. revert w. apply sim_eq.
  assert (Hv : Forall2 (fun f v => assoc (fname S f) (combine (ctrl_names S fs) news) = Some v) (filter (kind_is FtLength) fs) news).
  { unfold ctrl_names in *. rewrite map_length in Hlen. pose proof (NoDup_map_filter (fname S) (kind_is FtLength) fs Hn1) as Hn. revert Hlen Hn.
    generalize (filter (kind_is FtLength) fs). clear. intros l. revert news. induction l as [|f l IH]; intros [|v news] Hlen Hn; try discriminate; [constructor|].
    cbn [map combine]. cbn in Hn. inversion Hn; subst. constructor.
    - cbn [assoc]. now rewrite String.eqb_refl.
    - assert (F := IH news ltac:(now injection Hlen) H2). clear -F H1. revert F. generalize (combine (map (fname S) l) news). intros lc F.
      induction F as [|g u l news E _ IH']; constructor.
      + cbn [assoc]. rewrite (proj2 (String.eqb_neq (fname S g) (fname S f))); [exact E|]. intros X. apply H1. cbn. left. exact X.
      + apply IH'. intros X. apply H1. cbn. right. exact X. }
  unfold gen_try_set, gen_lengths, try_set_layout_controllers. rewrite x_len_names. unfold ctrl_names at 1.
  apply (sim_bind eq); [apply lengths_sim; [exact Hn1|apply incl_refl]|]. intros before ? <-.
  assert (Hg : forall w, mapM (fun x => get (assoc x (combine (ctrl_names S fs) news))) (ctrl_names S fs) w = Ok news w).
  { apply mapM_get. revert Hv. generalize (combine (ctrl_names S fs) news). intros lc Hv. unfold ctrl_names. clear -Hv. induction Hv; cbn; constructor; auto. }
  intros w. unfold bind at 1. rewrite Hg. revert w.
  match goal with |- forall w, match ?m w with _ => _ end => change (sim eq m
    (valid <- on_unwind
       (mapM (fun lf : list (list cell) -> N => x <- len_call (lf before) ;; y <- len_call (lf news) ;; ret (x =? y)) (len_fns (struct_flds S fs)))
       (for_each (fun '(f, v) => drop_value f v) (combine (map snd (ctrl_fields (struct_flds S fs))) news)) ;;
     if forallb (fun b => b) valid then set_ctrls a dp (ctrl_fields (struct_flds S fs)) news ;;; ret true
     else for_each (fun '(f, v) => drop_value f v) (combine (map snd (ctrl_fields (struct_flds S fs))) news) ;;; ret false)) end.
  unfold struct_flds. rewrite len_fns_of, ctrl_fields_of by exact HL.
  assert (Hdr : sim eq (ctl_drop S (x_groups fs) (combine (ctrl_names S fs) news) (map (fname S) (filter (kind_is FtLength) fs)))
    (for_each (fun '(f, v) => drop_value f v) (combine (map snd (map (fun f => (tk_off S (fname S f), tk_fty S (fd_ty f))) (filter (kind_is FtLength) fs))) news))).
  { rewrite map_map. cbn [snd]. apply ctl_drop_sim; [exact Hn1|apply incl_refl|exact Hv]. }
  apply (sim_bind eq).
  { apply sim_unwind; [|exact Hdr]. cbn [x_groups g_lenexpr_ident]. assert (Hn3 : NoDup (tail_names S fs)) by (inversion Hn2; assumption).
    assert (Hi : incl (filter (kind_is FtVarlenArray) fs) (filter (kind_is FtVarlenArray) fs)) by apply incl_refl. revert Hi.
    generalize (filter (kind_is FtVarlenArray) fs) at 1 3 4. induction l as [|f l IH]; intros Hi; [apply sim_refl|].
    assert (Hf : In f fs /\ kind_is FtVarlenArray f = true) by (apply filter_In, Hi; left; reflexivity). destruct Hf as [Hf Hk]. apply kind_is_spec in Hk.
    cbn [map mapM]. rewrite (x_call_len S fs f before Hn3 Hf Hk), (x_call_len S fs f news Hn3 Hf Hk).
    apply sim_same. intros b. apply (sim_bind eq); [apply IH; intros x Hx; apply Hi; right; exact Hx|]. intros bs ? <-. apply sim_refl. }
  intros valid ? <-. destruct (forallb _ _).
  - apply (sim_bind eq); [|intros; apply sim_refl]. apply ctl_assign_sim; [exact Hn1|apply incl_refl|exact Hv].
  - apply (sim_bind eq); [|intros; apply sim_refl]. exact Hdr.
Qed.

(** ** A concrete struct
      struct T { #[controls_layout] n: u8, d: D, #[varlen] s: Str<u8>, #[varlen_array] xs: [u16; *n as usize + 1] }
    with D a droppable type of 4 bytes. *)
Definition tok_ex : tokens :=
  mkTok (fun n => match n with 0%nat => "n" | 1%nat => "d" | 2%nat => "s" | _ => "xs" end)%string (fun x => x)
    (fun _ => TStr LU8)
    (fun t => match t with 10%nat => u8 | 11%nat => mkF 4 4 true (fun _ => None) | _ => mkF 2 2 false (fun v => Some v) end)
    (fun _ e => match e "n"%string with Some [By b] => b + 1 | _ => 0 end)
    (fun x => if String.eqb x "n" then 4 else if String.eqb x "d" then 0 else 5) 8 4.
Definition is_ex : list init :=
  [IFixed [By 1]; IFixed [By 9; By 9; By 9; By 9]; INew (ISized 3 (ACopyFrom [[By 97]; [By 98]; [By 99]])); IArrF (AFillSeq (fun i => Some [By i; By 7]))].
Definition w_ex : world := mkW (fun _ => Un) [mkB 1024 64 8 true] (fun _ _ _ => None) 0 [].
Definition run_ex : M world (list (string * vval) * N) :=
  match parse_fields fs_ex with
  | None => undef UType
  | Some g =>
      o <- gen_cautious tok_ex g (named_init tok_ex fs_ex is_ex) ;;
      match o with
      | None => undef UType
      | Some nl =>
          gen_initialize tok_ex g (named_init tok_ex fs_ex is_ex) 1024 nl ;;;
          r <- gen_refs tok_ex g 1024 ;; n <- gen_layout_size nl ;; ret (r, n)
      end
  end.
Example C49_meets :
  (exists g, parse_fields fs_ex = Some g) /\ names_ok tok_ex fs_ex /\ Forall2 init_ok fs_ex is_ex /\
  match run_ex w_ex with
  | Ok (r, n) _ => n = 16 /\ r =
      [("n", VFix [By 1]); ("d", VFix [By 9; By 9; By 9; By 9]);
       ("s", VNew (VArr [[By 97]; [By 98]; [By 99]])); ("xs", VArr [[By 0; By 7]; [By 1; By 7]])]%string
  | _ => False
  end.
Proof.
  split; [eexists; reflexivity|]. split; [|split].
  - repeat split.
    + cbn. repeat constructor; cbn; intuition discriminate.
    + cbn. repeat constructor; cbn; intuition discriminate.
    + intros d f r E K X.
      assert (H : incl (tail_names tok_ex d) (tail_names tok_ex fs_ex)).
      { rewrite E. clear. induction d as [|g d IH]; [intros x []|]. cbn [app]. rewrite !tail_names_cons. destruct (is_tail g); [|exact IH].
        intros x [<-|[<-|H]]; cbn; auto. }
      apply H in X. cbn in X. intuition discriminate.
    + cbn. repeat constructor; cbn; intuition discriminate.
  - repeat constructor; cbn; eauto.
  - vm_compute. auto.
Qed.
