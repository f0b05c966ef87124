(** FineCode.v - every operation is a sequence of accesses (FineSpec.v): for every operation there is code that
    does the same. Proved by going through all functions of the model. *)
From Verif Require Export FineSpec Generic.

Scheme vty_rec2 := Induction for vty Sort Type
with flds_rec2 := Induction for flds Sort Type.
Combined Scheme vty_flds_rect from vty_rec2, flds_rec2.

Record lens (S : Type) := mkLens { l_X : Type; l_get : S -> world * l_X; l_put : world * l_X -> S;
  l_gp : forall p, l_get (l_put p) = p; l_pg : forall s, l_put (l_get s) = s }.
Arguments l_X {S}. Arguments l_get {S}. Arguments l_put {S}. Arguments l_gp {S}. Arguments l_pg {S}.
Definition in_world : lens world.
Proof. refine (mkLens world unit (fun w => (w, tt)) fst _ _); [intros [w []]; reflexivity|reflexivity]. Defined.
Definition in_pair (X : Type) : lens (world * X).
Proof. refine (mkLens (world * X) X (fun p => p) (fun p => p) _ _); reflexivity. Defined.

Definition res_map {S T A} (f : S -> T) (r : res S A) : res T A :=
  match r with Ok a s => Ok a (f s) | Panic s => Panic (f s) | UB u => UB u end.
Definition ip {S A} (L : lens S) (m : M S A) : Type :=
  { f : l_X L -> code (l_X L) A | forall s, m s = res_map (l_put L) (run (f (snd (l_get L s))) (fst (l_get L s))) }.

Fixpoint cbind {X Y A B} (c : code X A) (k : A -> X -> code Y B) (kp : X -> code Y B) : code Y B :=
  match c with
  | CRet a x => k a x
  | CPanic x => kp x
  | CUB u => CUB u
  | CDo p f => CDo p (fun r => cbind (f r) k kp)
  end.
Lemma run_cbind {X Y A B} (c : code X A) (k : A -> X -> code Y B) kp : forall w,
  run (cbind c k kp) w = match run c w with Ok a (w', x) => run (k a x) w' | Panic (w', x) => run (kp x) w' | UB u => UB u end.
Proof.
  induction c as [a x|x|u|p f IH]; intros w; cbn [cbind run]; try reflexivity.
  destruct (perform p w); [apply IH|apply IH|reflexivity].
Qed.
Lemma ip_ret {S A} (L : lens S) (a : A) : ip L (ret a).
Proof. exists (fun x => CRet a x). intros s. cbn. now rewrite <- surjective_pairing, l_pg. Defined.
Lemma ip_panic {S A} (L : lens S) : ip L (@panic S A).
Proof. exists (fun x => CPanic x). intros s. cbn. now rewrite <- surjective_pairing, l_pg. Defined.
Lemma ip_undef {S A} (L : lens S) u : ip L (@undef S A u).
Proof. exists (fun x => CUB u). reflexivity. Defined.
Lemma ip_bind {S A B} (L : lens S) (m : M S A) (k : A -> M S B) : ip L m -> (forall a, ip L (k a)) -> ip L (bind m k).
Proof.
  intros [f Hf] Hk. exists (fun x => cbind (f x) (fun a => proj1_sig (Hk a)) (fun x => CPanic x)).
  intros s. unfold bind. rewrite Hf, run_cbind. destruct (run (f _) _) as [a [w x]|[w x]|u]; cbn [res_map]; [|reflexivity|reflexivity].
  rewrite (proj2_sig (Hk a)), l_gp. reflexivity.
Defined.
Lemma ip_unwind {S A} (L : lens S) (m : M S A) c : ip L m -> ip L c -> ip L (on_unwind m c).
Proof.
  intros [f Hf] [g Hg]. exists (fun x => cbind (f x) (fun a x => CRet a x) (fun x => cbind (g x) (fun _ x => CPanic x) (fun x => CPanic x))).
  intros s. unfold on_unwind. rewrite Hf, run_cbind. destruct (run (f _) _) as [a [w x]|[w x]|u]; cbn [res_map]; [reflexivity| |reflexivity].
  rewrite Hg, l_gp, run_cbind. cbn [fst snd]. destruct (run (g x) w) as [a [w' x']|[w' x']|u]; reflexivity.
Defined.
Lemma ip_each {S A} (L : lens S) (body : A -> M S unit) l : (forall a, ip L (body a)) -> ip L (for_each body l).
Proof. intros H. induction l as [|x l IH]; cbn [for_each]; [apply ip_ret|apply ip_bind; auto]. Defined.
Lemma ip_mapM {S A B} (L : lens S) (body : A -> M S B) l : (forall a, ip L (body a)) -> ip L (mapM body l).
Proof.
  intros H. induction l as [|x l IH]; cbn [mapM]; [apply ip_ret|]. apply ip_bind; [auto|]. intros y. apply ip_bind; [auto|].
  intros ys. apply ip_ret.
Defined.
Lemma ip_padd {S} (L : lens S) a b : ip L (padd a b).
Proof. unfold padd. destruct (_ <? _); [apply ip_ret|apply ip_undef]. Defined.
Lemma ip_pmul {S} (L : lens S) a b : ip L (pmul a b).
Proof. unfold pmul. destruct (_ <? _); [apply ip_ret|apply ip_undef]. Defined.
(** One access. *)
Lemma ip_prim p : ip in_world (perform p).
Proof.
  exists (fun x => CDo p (fun r => match r with Some a => CRet a x | None => CPanic x end)). intros w. cbn [in_world l_get l_put fst snd run res_map].
  destruct (perform p w); reflexivity.
Defined.
Lemma ip_emit e : ip in_world (emit e). Proof. exact (ip_prim (MEmit e)). Defined.
Lemma ip_ref a n al : ip in_world (check_ref a n al). Proof. exact (ip_prim (MRef a n al)). Defined.
Lemma ip_load a n al : ip in_world (load a n al). Proof. exact (ip_prim (MLoad a n al)). Defined.
Lemma ip_store a al bs : ip in_world (store a al bs). Proof. exact (ip_prim (MStore a al bs)). Defined.
Lemma ip_copy src dst n al : ip in_world (copy_nonoverlapping src dst n al). Proof. exact (ip_prim (MCopy src dst n al)). Defined.
Lemma ip_copy_bytes src dst n : ip in_world (copy_bytes src dst n). Proof. exact (ip_prim (MCopyBytes src dst n)). Defined.
Lemma ip_fill_zero a n : ip in_world (fill_zero a n). Proof. exact (ip_prim (MFillZero a n)). Defined.
Lemma ip_alloc size align : ip in_world (alloc size align). Proof. exact (ip_prim (MAlloc size align)). Defined.
Lemma ip_bump size align : ip in_world (bump_alloc size align). Proof. exact (ip_prim (MBump size align)). Defined.
Lemma ip_dealloc a size align : ip in_world (dealloc a size align). Proof. exact (ip_prim (MDealloc a size align)). Defined.
Lemma ip_realloc a size align ns : ip in_world (realloc a size align ns). Proof. exact (ip_prim (MRealloc a size align ns)). Defined.
Create HintDb ipd.
#[export] Hint Resolve ip_ret ip_panic ip_undef ip_padd ip_pmul ip_emit ip_ref ip_load ip_store ip_copy ip_copy_bytes ip_fill_zero
  ip_alloc ip_bump ip_dealloc ip_realloc : ipd.
Ltac ips :=
  repeat first
    [ assumption
    | solve [eauto 3 with ipd]
    | apply ip_bind; [|intros ?]
    | apply ip_unwind
    | apply ip_each; intros ?
    | apply ip_mapM; intros ?
    | match goal with
      | |- ip _ (let '(_, _) := ?x in _) => destruct x as [? ?]
      | |- ip _ (match ?x with _ => _ end) => destruct x as [] eqn:?
      | |- ip _ (let _ := _ in _) => cbv zeta
      end ].
Lemma ip_load_len k a : ip in_world (load_len k a).
Proof. unfold load_len. ips. Defined.
Lemma ip_load_ctrls fs a : ip in_world (load_ctrls fs a).
Proof. unfold load_ctrls. ips. Defined.
Lemma ip_len_call n : ip in_world (len_call n).
Proof. unfold len_call. ips. Defined.
#[export] Hint Resolve ip_load_len ip_load_ctrls ip_len_call : ipd.
Lemma ip_layout2 :
  (forall t a, ip in_world (calc_layout t a)) * (forall fs cs a size, ip in_world (calc_tail fs cs a size)).
Proof. apply vty_flds_rect; intros; cbn [calc_layout calc_tail]; ips; auto. all: ips; auto. all: ips; auto. Defined.
Lemma ip_layout t a : ip in_world (calc_layout t a).
Proof. now apply ip_layout2. Defined.
#[export] Hint Resolve ip_layout : ipd.
Lemma ip_init_layout2 :
  (forall t i, ip in_world (init_layout t i)) * (forall fs is_ cs size, ip in_world (init_tail fs is_ cs size)).
Proof. apply vty_flds_rect; intros; cbn [init_layout init_tail]; ips. Defined.
Lemma ip_init_layout t i : ip in_world (init_layout t i).
Proof. now apply ip_init_layout2. Defined.
Lemma ip_drop_leaf f a : ip in_world (drop_leaf f a).
Proof. unfold drop_leaf. ips. Defined.
Lemma ip_drop_value f v : ip in_world (drop_value f v).
Proof. unfold drop_value. ips. Defined.
#[export] Hint Resolve ip_init_layout ip_drop_leaf ip_drop_value : ipd.
Lemma ip_drop_array f a off n : ip in_world (drop_array f a off n).
Proof. unfold drop_array. ips. Defined.
#[export] Hint Resolve ip_drop_array : ipd.
Lemma ip_vdrop2 :
  (forall t a l, ip in_world (vdrop t a l)) * (forall fs a es, ip in_world (vdrop_flds fs a es)).
Proof. apply vty_flds_rect; intros; cbn [vdrop vdrop_flds]; ips. Defined.
Lemma ip_vdrop t a l : ip in_world (vdrop t a l).
Proof. now apply ip_vdrop2. Defined.
#[export] Hint Resolve ip_vdrop : ipd.
Lemma ip_vbox_drop t a : ip in_world (vbox_drop t a).
Proof. unfold vbox_drop. ips. Defined.
Lemma ip_owned_drop t a : ip in_world (owned_drop t a).
Proof. unfold owned_drop. ips. Defined.
Lemma ip_drop_ainit f ai : ip in_world (drop_ainit f ai).
Proof. unfold drop_ainit. ips. Defined.
#[export] Hint Resolve ip_vbox_drop ip_owned_drop ip_drop_ainit : ipd.
Lemma ip_drop_init2 :
  (forall t i, ip in_world (drop_init t i)) * (forall fs is_, ip in_world (drop_flds fs is_)).
Proof. apply vty_flds_rect; intros; cbn [drop_init drop_flds]; ips. Defined.
Lemma ip_drop_init t i : ip in_world (drop_init t i).
Proof. now apply ip_drop_init2. Defined.
Lemma ip_drop_flds fs is_ : ip in_world (drop_flds fs is_).
Proof. now apply ip_drop_init2. Defined.
#[export] Hint Resolve ip_drop_init ip_drop_flds : ipd.
Lemma ip_drop_flds_rev fs : forall is_, ip in_world (drop_flds_rev fs is_).
Proof. induction fs; intros; cbn [drop_flds_rev]; ips. Defined.
#[export] Hint Resolve ip_drop_flds_rev : ipd.
Lemma ip_fill_loop f p pre g i : ip in_world (fill_loop f p pre g i).
Proof. unfold fill_loop. ips. Defined.
#[export] Hint Resolve ip_fill_loop : ipd.
Lemma ip_ainit_run f ai p n : ip in_world (ainit_run f ai p n).
Proof. unfold ainit_run. ips. Defined.
#[export] Hint Resolve ip_ainit_run : ipd.
Lemma ip_init_array f ai a off n : ip in_world (init_array f ai a off n).
Proof. unfold init_array. ips. Defined.
Lemma ip_unwind_rec kd temps r is_ : ip in_world (unwind_rec kd temps r is_).
Proof. unfold unwind_rec, drop_temps. ips. Defined.
#[export] Hint Resolve ip_init_array ip_unwind_rec : ipd.
Lemma ip_initialize2 :
  (forall t i dst l, ip in_world (initialize t i dst l)) * (forall fs kd is_ es dst temps, ip in_world (init_fields kd fs is_ es dst temps)).
Proof. apply vty_flds_rect; intros; cbn [initialize init_fields]; ips. Defined.
Lemma ip_initialize t i dst l : ip in_world (initialize t i dst l).
Proof. now apply ip_initialize2. Defined.
Lemma ip_read_array f a off n : ip in_world (read_array f a off n).
Proof. unfold read_array. ips. Defined.
#[export] Hint Resolve ip_initialize ip_read_array : ipd.
Lemma ip_view2 :
  (forall t a, ip in_world (view t a)) * (forall fs a es, ip in_world (view_flds fs a es)).
Proof. apply vty_flds_rect; intros; cbn [view view_flds]; ips. Defined.
Lemma ip_view t a : ip in_world (view t a).
Proof. now apply ip_view2. Defined.
Lemma ip_elem_mut f a off n i : ip in_world (elem_mut f a off n i).
Proof. unfold elem_mut. ips. Defined.
#[export] Hint Resolve ip_view ip_elem_mut : ipd.
Lemma ip_locate2 :
  (forall t a p, ip in_world (locate t a p)) * (forall fs a es j p, ip in_world (locate_fld fs a es j p)).
Proof. apply vty_flds_rect; intros; cbn [locate locate_fld]; ips. Defined.
Lemma ip_locate t a p : ip in_world (locate t a p).
Proof. now apply ip_locate2. Defined.
Lemma ip_ref_slice f a off n : ip in_world (ref_slice f a off n).
Proof. unfold ref_slice. ips. Defined.
#[export] Hint Resolve ip_locate ip_ref_slice : ipd.
Lemma ip_field_slice fs : forall a es j, ip in_world (field_slice fs a es j).
Proof. induction fs; intros; cbn [field_slice]; ips. Defined.
#[export] Hint Resolve ip_field_slice : ipd.
Lemma ip_array_slice t a j : ip in_world (array_slice t a j).
Proof. unfold array_slice. ips. Defined.
Lemma ip_sub_slice s lo k : ip in_world (sub_slice s lo k).
Proof. unfold sub_slice. ips. Defined.
Lemma ip_assign t a p new : ip in_world (assign t a p new).
Proof. unfold assign. ips. Defined.
Lemma ip_vclone2 :
  (forall t a, ip in_world (vclone t a)) * (forall fs a es, ip in_world (vclone_flds fs a es)).
Proof. apply vty_flds_rect; intros; cbn [vclone vclone_flds]; ips. Defined.
Lemma ip_vclone t a : ip in_world (vclone t a).
Proof. now apply ip_vclone2. Defined.
Lemma ip_set_ctrls a dp cf : forall news, ip in_world (set_ctrls a dp cf news).
Proof. induction cf; intros; cbn [set_ctrls]; ips. Defined.
#[export] Hint Resolve ip_array_slice ip_sub_slice ip_assign ip_vclone ip_set_ctrls : ipd.
Lemma ip_try_set fs a dp news : ip in_world (try_set_layout_controllers fs a dp news).
Proof. unfold try_set_layout_controllers. ips. Defined.
Lemma ip_vbox_new t i : ip in_world (vbox_new t i).
Proof. unfold vbox_new. ips. Defined.
Lemma ip_owned_new_in t i : ip in_world (owned_new_in t i).
Proof. unfold owned_new_in. ips. Defined.
#[export] Hint Resolve ip_try_set ip_vbox_new ip_owned_new_in : ipd.
(** sequences *)
Lemma ip_lift {X A} (m : M world A) (k : M (world * X) A) :
  (forall w y, k (w, y) = match m w with Ok a w' => Ok a (w', y) | Panic w' => Panic (w', y) | UB u => UB u end) ->
  ip in_world m -> ip (in_pair X) k.
Proof.
  intros Hk [f Hf]. exists (fun y => cbind (f tt) (fun a _ => CRet a y) (fun _ => CPanic y)). intros [w y]. rewrite Hk, Hf, run_cbind.
  cbn [in_world in_pair l_get l_put fst snd]. destruct (run (f tt) w) as [a [w' x]|[w' x]|u]; reflexivity.
Defined.
Lemma ip_lft {A} (m : M world A) : ip in_world m -> ip (in_pair sq) (lft m).
Proof. apply ip_lift. intros w y. reflexivity. Defined.
Lemma ip_lft_t {A} (m : M world A) : ip in_world m -> ip (in_pair tstate) (lft_t m).
Proof. apply ip_lift. intros w y. reflexivity. Defined.
Lemma ip_get : ip (in_pair sq) get_sq.
Proof. exists (fun s => CRet s s). intros [w s]. reflexivity. Defined.
Lemma ip_set s' : ip (in_pair sq) (set_sq s').
Proof. exists (fun s => CRet tt s'). intros [w s]. reflexivity. Defined.
#[export] Hint Resolve ip_get ip_set : ipd.
Ltac ips ::=
  repeat first
    [ assumption
    | solve [eauto 3 with ipd]
    | apply ip_bind; [|intros ?]
    | apply ip_unwind
    | apply ip_each; intros ?
    | apply ip_mapM; intros ?
    | apply ip_lft
    | apply ip_lft_t
    | match goal with
      | |- ip _ (let '(_, _) := ?x in _) => destruct x as [? ?]
      | |- ip _ (match ?x with _ => _ end) => destruct x as [] eqn:?
      | |- ip _ (let _ := _ in _) => cbv zeta
      end ].
Lemma ip_bitmask size align : ip in_world (add_bitmask_to_layout size align).
Proof. unfold add_bitmask_to_layout, add_bitmask_lim. ips. Defined.
#[export] Hint Resolve ip_bitmask : ipd.
Lemma ip_alloc_storage chk size align : ip in_world (alloc_storage chk size align).
Proof. unfold alloc_storage. ips. Defined.
Lemma ip_grow_storage chk ptr os align ns : ip in_world (grow_storage chk ptr os align ns).
Proof. unfold grow_storage. ips. Defined.
Lemma ip_mark chk ptr cap o align : ip in_world (mark_offset_valid chk ptr cap o align).
Proof. unfold mark_offset_valid. ips. Defined.
Lemma ip_clear chk ptr cap occ align : ip in_world (clear_bitmasks chk ptr cap occ align).
Proof. unfold clear_bitmasks. ips. Defined.
Lemma ip_extended chk size align : ip in_world (extended_size chk size align).
Proof. unfold extended_size. ips. Defined.
#[export] Hint Resolve ip_alloc_storage ip_grow_storage ip_mark ip_clear ip_extended : ipd.
Lemma ip_try_realloc chk ptr cap mn align : ip in_world (try_realloc chk ptr cap mn align).
Proof. unfold try_realloc. ips. Defined.
#[export] Hint Resolve ip_try_realloc : ipd.
Lemma ip_must_realloc chk ptr cap mn align : ip in_world (must_realloc chk ptr cap mn align).
Proof. unfold must_realloc. ips. Defined.
#[export] Hint Resolve ip_must_realloc : ipd.
Lemma ip_push t chk i : ip (in_pair sq) (seq_push t chk i).
Proof. unfold seq_push. ips. Defined.
Lemma ip_next t it : ip in_world (iter_next t it).
Proof. unfold iter_next. ips. Defined.
#[export] Hint Resolve ip_push ip_next : ipd.
Lemma ip_collect t fuel : forall it, ip in_world (iter_collect t fuel it).
Proof. induction fuel; intros; cbn [iter_collect]; ips. Defined.
#[export] Hint Resolve ip_collect : ipd.
Lemma ip_contents t s : ip in_world (seq_contents t s).
Proof. unfold seq_contents. ips. Defined.
Lemma ip_offset_of t s e : ip in_world (offset_of t s e).
Proof. unfold offset_of. ips. Defined.
Lemma ip_from_unchecked t s o : ip in_world (from_offset_unchecked t s o).
Proof. unfold from_offset_unchecked. ips. Defined.
Lemma ip_offset_valid t s o : ip in_world (is_offset_valid t s o).
Proof. unfold is_offset_valid. ips. Defined.
#[export] Hint Resolve ip_contents ip_offset_of ip_from_unchecked ip_offset_valid : ipd.
Lemma ip_from_offset t s o : ip in_world (from_offset t s o).
Proof. unfold from_offset. ips. Defined.
Lemma ip_take t chk : ip (in_pair sq) (take_elems t chk).
Proof. unfold take_elems. ips. Defined.
Lemma ip_drop_loop t n : forall it, ip in_world (drop_elems_loop t n it).
Proof. induction n; intros; cbn [drop_elems_loop]; ips. Defined.
#[export] Hint Resolve ip_from_offset ip_take ip_drop_loop : ipd.
Lemma ip_elems_drop t it : ip in_world (owned_elems_drop t it).
Proof. unfold owned_elems_drop. ips. Defined.
#[export] Hint Resolve ip_elems_drop : ipd.
Lemma ip_seq_drop t chk : ip (in_pair sq) (seq_drop t chk).
Proof. unfold seq_drop. ips. Defined.
#[export] Hint Resolve ip_seq_drop : ipd.
(** programs *)
Lemma ip_subobject2 :
  (forall t a p, ip in_world (subobject t a p)) * (forall fs a es j p, ip in_world (subobject_fld fs a es j p)).
Proof. apply vty_flds_rect; intros; cbn [subobject subobject_fld]; ips. Defined.
Lemma ip_subobject t a p : ip in_world (subobject t a p).
Proof. now apply ip_subobject2. Defined.
#[export] Hint Resolve ip_subobject : ipd.
Lemma ip_resolve sl pl : ip in_world (resolve sl pl).
Proof. unfold resolve. ips. Defined.
#[export] Hint Resolve ip_resolve : ipd.
Lemma ip_slice_init sl cl pl j lo k : ip in_world (slice_init sl cl pl j lo k).
Proof. unfold slice_init. ips. Defined.
#[export] Hint Resolve ip_slice_init : ipd.
Lemma ip_eval sl : forall p, ip in_world (eval sl p).
Proof.
  fix IH 1. intros [v|v|n ai|ai|n cl pl j lo k|cl pl j lo k|h|pl|pl|p|ps]; cbn [eval]; ips.
  induction ps as [|p ps IHps]; [apply ip_ret|]. apply ip_bind; [apply IH|]. intros i. apply ip_bind; [exact IHps|]. intros; apply ip_ret.
Defined.
#[export] Hint Resolve ip_eval : ipd.
Lemma ip_take_cmd t c : ip (in_pair tstate) (take_cmd t c).
Proof.
  assert (Hh : forall j, ip (in_pair tstate) (held_at j)).
  { intros j. exists (fun s => match nth_error (snd s) j with Some (Some a) => CRet a s | _ => CUB UType end). intros [w s]. cbn [held_at in_pair l_get l_put fst snd].
    destruct (nth_error (snd s) j) as [[a|]|]; reflexivity. }
  assert (Hl : forall j, ip (in_pair tstate) (let_go j)).
  { intros j. exists (fun s => CRet tt (fst s, update (snd s) j None)). intros [w [it l]]. reflexivity. }
  destruct c; cbn [take_cmd]; ips.
  - pose proof (fun it => ip_next t it) as Hnx.
    exists (fun s => cbind (proj1_sig (Hnx (fst s)) tt) (fun r _ => match r with (None, it') => CRet (OutBool false) (it', snd s) | (Some a, it') => CRet (OutBool true) (it', snd s ++ [Some a]) end)
      (fun _ => CPanic s)).
    intros [w [it l]]. cbn [in_pair l_get l_put fst snd]. rewrite run_cbind. destruct (Hnx it) as [f Hf]. cbn [proj1_sig]. rewrite Hf.
    cbn [in_world l_get l_put fst snd]. destruct (run (f tt) w) as [[[a|] it'] [w' x]|[w' x]|u]; reflexivity.
  - exists (fun s => CRet (OutNum (iter_len (fst s))) s). intros [w [it l]]. reflexivity.
Defined.
#[export] Hint Resolve ip_take_cmd : ipd.
Lemma ip_take_end t keep s : ip in_world (take_end t keep s).
Proof. unfold take_end. ips. Defined.
#[export] Hint Resolve ip_take_end : ipd.
Lemma ip_take_run t it cmds keep : ip in_world (take_run t it cmds keep).
Proof.
  assert (Hm : ip (in_pair tstate) (mapM (take_cmd t) cmds)) by ips.
  assert (H1 : forall s outs, ip in_world (take_end t keep s ;;; ret outs : M world (list out))) by (intros; ips).
  assert (H2 : forall s, ip in_world (take_end t false s ;;; (@panic world (list out)))) by (intros; ips).
  exists (fun _ => cbind (proj1_sig Hm (it, [])) (fun outs s => proj1_sig (H1 s outs) tt) (fun s => proj1_sig (H2 s) tt)).
  intros w. unfold take_run. cbn [in_world l_get l_put fst snd]. rewrite run_cbind. destruct Hm as [f Hf]. cbn [proj1_sig]. rewrite Hf. cbn [in_pair l_get l_put fst snd].
  destruct (run (f (it, [])) w) as [outs [w' s]|[w' s]|u]; cbn [res_map].
  - exact (proj2_sig (H1 s outs) w').
  - exact (proj2_sig (H2 s) w').
  - reflexivity.
Defined.
Lemma ip_mem_swap a b n al : ip in_world (mem_swap a b n al).
Proof. unfold mem_swap. ips. Defined.
#[export] Hint Resolve ip_take_run ip_mem_swap : ipd.
Lemma ip_swap_leaves t a q t' a' q' : ip in_world (swap_leaves t a q t' a' q').
Proof. unfold swap_leaves. ips. Defined.
#[export] Hint Resolve ip_swap_leaves : ipd.
(** Operations. *)
Definition coded (m : world -> res config out) : Type := { c : code (list slot) out | forall w, run c w = m w }.
Lemma coded_call {A} (m : M world A) k kp : ip in_world m -> coded (call m k kp).
Proof.
  intros [f Hf]. exists (cbind (f tt) (fun a _ => CRet (fst (k a)) (snd (k a))) (fun _ => CPanic kp)). intros w. rewrite run_cbind. unfold call. rewrite Hf.
  cbn [in_world l_get l_put fst snd]. destruct (run (f tt) w) as [a [w' x]|[w' x]|u]; reflexivity.
Defined.
Lemma coded_call_seq {A} (m : SM A) s k kp : ip (in_pair sq) m -> coded (call_seq m s k kp).
Proof.
  intros [f Hf]. exists (cbind (f s) (fun a s' => CRet (fst (k a s')) (snd (k a s'))) (fun s' => CPanic (kp s'))). intros w. rewrite run_cbind. unfold call_seq. rewrite Hf.
  cbn [in_pair l_get l_put fst snd]. destruct (run (f s) w) as [a [w' x]|[w' x]|u]; reflexivity.
Defined.
Lemma coded_ret r sl : coded (fun w => Ok r (w, sl)).
Proof. exists (CRet r sl). reflexivity. Defined.
Lemma coded_ub u : coded (fun w => UB u).
Proof. exists (CUB u). reflexivity. Defined.
Lemma exec_coded o sl : coded (fun w => exec o (w, sl)).
Proof.
  destruct o; cbn [exec];
    repeat match goal with |- coded (fun w => match ?x with _ => _ end) => destruct x as [] end;
    try apply coded_ret; try apply coded_ub; try (apply coded_call; ips); try (apply coded_call_seq; ips).
Defined.
