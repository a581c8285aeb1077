(** * Everything comes to an end *)
From Verif Require Import Reach InvObj InvLock InvList InvSlot InvStack InvUse InvErase InvDeath SpecCall InvOp OpSlots.
From Verif Require Export EndStep.

Section world.
Context (mu : list arg -> nat) (e : env) (ps : list prog).
Hypothesis Hll : lockless_env e.
Hypothesis Hmu : ends_env mu e.
Notation good := (good mu e). Notation items := (items mu).

Definition I_good (w : world) : Prop := forall t st, w_thr w !! t = Some st -> AT good st.
Lemma I_good_inv w : reachable e ps w -> I_good w.
Proof.
  apply reach_ind.
  - intros t st Ht. cbn in Ht. rewrite list_lookup_fmap in Ht. destruct (ps !! t); cbn in Ht; simplify_eq. cbn. split; [|exact I].
    split; [apply okp_any|exact I].
  - clear w. intros w t st w' st' _ HI Ht Htr _ t1 st1 H1. unfold reap in H1. wcbn_in H1. rewrite (trans_thr _ _ _ _ _ _ Htr) in H1.
    assert (Ht' : w_thr (mid w t st) !! t = Some st) by (cbn; apply list_lookup_insert; eapply lookup_lt_Some; eauto).
    destruct (decide (t1 = t)) as [->|Hn]; [|rewrite list_lookup_insert_ne in H1 by auto; eauto].
    rewrite list_lookup_insert in H1 by (eapply lookup_lt_Some; eauto). simplify_eq.
    assert (HA : AT good st') by (eapply good_trans; eauto). revert HA. generalize (w_set_stack w' t st'). intros w2 HA.
    destruct Hmu as (_ & _ & _ & Ho).
    induction (dead w w2) as [|d ds IH]; cbn; [exact HA|]. rewrite <- app_assoc. unfold dtor_frames at 1.
    destruct (dtor_prog e w2 d) as [p|] eqn:Hp; [|exact IH].
    cbn. split; [|split; [|exact IH]; split; [exact I|]; repeat case_match; auto].
    split; [|exact I]. destruct d as [l|o]; cbn in Hp |- *.
    + destruct (w_slots w2 !! l) as [r|]; [|discriminate]. apply okp_lockless; [eapply Hll; eauto|]. intros (x & q & Hx). eapply Ho; eauto.
    + destruct (Ho _ _ Hp) as (H1 & H2 & _). apply okp_object; auto.
Qed.

(** ** Slots *)
Definition dead_items (w : world) (x : lid + oid) : list item :=
  match dtor_prog e w x with
  | Some p => [(match x with inl _ => Some 0 | inr _ => Some 3 end, IP p); (Some 0, IN 0)]
  | None => []
  end.
Notation dtor_items w l := (dead_items w (inl l)).
Definition obj_items (o : oid) : list item :=
  match e_odtor e o with Some p => [(Some 3, IP p); (Some 0, IN 0)] | None => [] end.
Definition objs_items (w : world) : list item :=
  flat_map (fun o => if obj_alive w o then obj_items o else []) (seq 0 (length (v_objs (w_vars w)))).
Definition slot_items (w : world) : list item :=
  flat_map (fun l => if slot_alive w l then dtor_items w l else []) (seq 0 (length (w_slots w))).
Definition all_items (w : world) : list item := flat_map items (w_thr w) ++ slot_items w ++ objs_items w.

Lemma items_dtors w ds st : items (flat_map (dtor_frames e w) ds ++ st) = flat_map (dead_items w) ds ++ items st.
Proof.
  induction ds as [|d ds IH]; [reflexivity|]. cbn [flat_map]. rewrite <- !app_assoc, <- IH. unfold dtor_frames at 1, dead_items at 1.
  destruct (dtor_prog e w d); [|reflexivity]. destruct d; reflexivity.
Qed.
Lemma dead_both w w1 : flat_map (dead_items w1) (dead w w1) = flat_map obj_items (dead_objs w w1) ++ flat_map (fun l => dtor_items w1 l) (dead_slots w w1).
Proof.
  unfold dead. rewrite flat_map_app, !flat_map_concat_map, !map_map. reflexivity.
Qed.
Lemma thr_split t st (thr : list (list frame)) : thr !! t = Some st ->
  exists rest, flat_map items thr ≡ₚ items st ++ rest /\ forall X, flat_map items (<[t := X]> thr) ≡ₚ items X ++ rest.
Proof.
  revert thr. induction t as [|t IH]; intros [|x thr] H; try discriminate.
  - cbn in H. simplify_eq. exists (flat_map items thr). split; [reflexivity|]. intros X. reflexivity.
  - cbn in H. destruct (IH _ H) as (rest & H1 & H2). exists (items x ++ rest). cbn. split.
    + rewrite H1, !app_assoc. f_equiv. apply Permutation_app_comm.
    + intros X. rewrite H2, !app_assoc. f_equiv. apply Permutation_app_comm.
Qed.
Lemma dead_split (a b : nat -> bool) (g : nat -> list item) ls : (forall l, l ∈ ls -> b l = true -> a l = true) ->
  flat_map (fun l => if b l then g l else []) ls ++ flat_map g (filter (fun l => a l && negb (b l)) ls) ≡ₚ flat_map (fun l => if a l then g l else []) ls.
Proof.
  induction ls as [|l ls IH]; intros H; [reflexivity|].
  assert (IH' := IH (fun l' Hl => H l' (elem_of_list_further _ _ _ Hl))). assert (H0 := H l (elem_of_list_here _ _)). cbn [flat_map].
  destruct (b l) eqn:Eb; [rewrite H0 by reflexivity|destruct (a l) eqn:Ea].
  - rewrite filter_cons_False by (rewrite Eb, andb_false_r; exact (fun H => H)). rewrite <- app_assoc, IH'. reflexivity.
  - rewrite filter_cons_True by (rewrite Ea, Eb; exact I). cbn. rewrite <- IH'. rewrite !app_assoc. f_equiv. apply Permutation_app_comm.
  - rewrite filter_cons_False by (rewrite Ea; exact (fun H => H)). cbn. exact IH'.
Qed.

Lemma trans_c w t st w' st' l r : trans e w t st w' st' -> w_slots w !! l = Some r ->
  exists r', w_slots w' !! l = Some r' /\ im_c (sl_impl r') = im_c (sl_impl r).
Proof.
  assert (Ha : forall (f : impl -> impl) l0 (sl : list slotrec), (forall i, im_c (f i) = im_c i) -> sl !! l = Some r ->
    exists r', alter (fun s => SlotRec (f (sl_impl s)) (sl_sig s)) l0 sl !! l = Some r' /\ im_c (sl_impl r') = im_c (sl_impl r)).
  { intros f l0 sl Hf H. destruct (decide (l0 = l)) as [->|Hn]; [rewrite list_lookup_alter, H; cbn; eauto|rewrite list_lookup_alter_ne by auto; eauto]. }
  intros Htr Hl. destruct Htr; wcbn; autorewrite with wsimp; eauto.
  - destruct r0; cbn; [apply Ha; auto|eauto].
  - destruct r0; cbn; [apply Ha; auto|eauto].
  - rewrite lookup_app_l by (eapply lookup_lt_Some; eauto). eauto.
  - unfold do_swap_pop. cbv zeta. case_match; [|eauto]. cbn. apply Ha; auto.
  - unfold do_swap_pop. cbv zeta. case_match; [|eauto]. cbn. apply Ha; auto.
Qed.
Lemma trans_grows w t st w' st' : trans e w t st w' st' -> length (w_slots w') = length (w_slots w) \/
  (length (w_slots w') = S (length (w_slots w)) /\ exists s v k r, st = FBody s v k :: r).
Proof.
  destruct 1; wcbn; autorewrite with wsimp; rewrite ?app_length, ?alter_length; auto. right. cbn. split; [lia|eauto 10].
Qed.
Lemma dtor_level w l : Forall (fun y : item => y.1 = Some 0) (dtor_items w l).
Proof. unfold dead_items. repeat case_match; repeat constructor. Qed.

Lemma slots_step w t st w' st' : reachable e ps w -> w_thr w !! t = Some st -> trans e w t st w' st' ->
  exists ns, slot_items (mid w' t st') ++ flat_map (fun l => dtor_items (mid w' t st') l) (dead_slots w (mid w' t st')) ≡ₚ slot_items w ++ ns /\
    (ns = [] \/ (exists s v k r, st = FBody s v k :: r) /\ Forall (fun y : item => y.1 = Some 0) ns).
Proof.
  intros Hr Ht Htr. set (w2 := mid w' t st').
  assert (Hc : forall l, l < length (w_slots w) -> dtor_items w2 l = dtor_items w l).
  { intros l Hl. destruct (lookup_lt_is_Some_2 _ _ Hl) as [r Hr0]. destruct (trans_c _ _ _ _ _ _ _ Htr Hr0) as (r' & H1 & H2).
    unfold dead_items; cbn [dtor_prog]. change (w_slots w2) with (w_slots w'). rewrite H1, Hr0, H2. reflexivity. }
  assert (Hal : forall l, l < length (w_slots w) -> slot_alive w2 l = true -> slot_alive w l = true).
  { intros l Hl Ha. destruct (trans_alive _ _ _ _ _ _ _ _ Hr Ht Htr Ha) as [H|[-> _]]; [exact H|lia]. }
  assert (Hext : forall (f g : lid -> list item) ls, (forall l, l ∈ ls -> f l = g l) -> flat_map f ls = flat_map g ls).
  { intros f g ls H. induction ls as [|l ls IH]; [reflexivity|]. cbn. rewrite H, IH; [reflexivity| |left]. intros l' Hl'. apply H. right. exact Hl'. }
  assert (Hold : flat_map (fun l => if slot_alive w2 l then dtor_items w2 l else []) (seq 0 (length (w_slots w))) ++
    flat_map (fun l => dtor_items w2 l) (dead_slots w w2) ≡ₚ slot_items w).
  { unfold slot_items, dead_slots. rewrite <- (dead_split (slot_alive w) (slot_alive w2) (fun l => dtor_items w l)).
    - f_equiv; apply (fun H => eq_ind _ (fun x => _ ≡ₚ x) (Permutation_refl _) _ H); apply Hext; intros l Hl.
      + apply elem_of_seq in Hl. rewrite Hc by lia. reflexivity.
      + apply elem_of_list_filter in Hl as [_ Hl]. apply elem_of_seq in Hl. apply Hc. lia.
    - intros l Hl. apply elem_of_seq in Hl. apply Hal. lia. }
  destruct (trans_grows _ _ _ _ _ Htr) as [Hlen|[Hlen HB]].
  - exists []. split; [|auto]. rewrite app_nil_r. unfold slot_items at 1. change (w_slots w2) with (w_slots w'). rewrite Hlen. exact Hold.
  - exists (if slot_alive w2 (length (w_slots w)) then dtor_items w2 (length (w_slots w)) else []). split.
    + unfold slot_items at 1. change (w_slots w2) with (w_slots w'). rewrite Hlen, seq_S, flat_map_app. cbn [flat_map plus]. rewrite app_nil_r.
      rewrite <- Hold, <- !app_assoc. f_equiv. apply Permutation_app_comm.
    + right. split; [exact HB|]. case_match; [apply dtor_level|constructor].
Qed.

Lemma makes_obj w t st w' st' n : trans e w t st w' st' -> w_log w' = ENewObj n :: w_log w -> exists k r, st = FProg (Do (OVar VNewObj) k) :: r.
Proof.
  assert (Hno : forall (x : event) l, l = x :: l -> False) by (intros x l H; apply (f_equal length) in H; cbn in H; lia).
  assert (Hv : forall v x o, exec_vop w t v = VOk x o (EfLog (ENewObj n)) -> v = VNewObj).
  { intros v x o H. destruct v; auto; exfalso; revert H; unfold exec_vop, blk_eff; cbv zeta; repeat case_match; intros H'; try discriminate H'. all: unfold disc_res in H'; case_match; discriminate H'. }
  intros Htr H. destruct Htr; wcbn_in H; autorewrite with wsimp in H; try (injection H; discriminate); try (exfalso; eapply Hno; exact H; fail).
  all: try (exfalso; revert H; unfold clear_conn; repeat case_match; cbn; intros H; first [discriminate H|eapply Hno; exact H|injection H; intros; discriminate]; fail).
  all: injection H as ->; match goal with H : exec_vop _ _ _ = _ |- _ => rewrite (Hv _ _ _ H) end; eauto.
Qed.
Lemma objs_step w t st w' st' : reachable e ps w -> w_thr w !! t = Some st -> trans e w t st w' st' ->
  exists ns, objs_items (mid w' t st') ++ flat_map obj_items (dead_objs w (mid w' t st')) ≡ₚ objs_items w ++ ns /\
    (ns = [] \/ exists k r p, st = FProg (Do (OVar VNewObj) k) :: r /\ e_odtor e (length (v_objs (w_vars w))) = Some p /\ ns = [(Some 3, IP p); (Some 0, IN 0)]).
Proof.
  intros Hr Ht Htr. set (w2 := mid w' t st').
  assert (Hal : forall o, o < length (v_objs (w_vars w)) -> obj_alive w2 o = true -> obj_alive w o = true).
  { intros o Ho Ha. destruct (trans_obj_alive _ _ _ _ _ _ _ _ Hr Ht Htr Ha) as [H|[-> _]]; [exact H|lia]. }
  assert (Hold : flat_map (fun o => if obj_alive w2 o then obj_items o else []) (seq 0 (length (v_objs (w_vars w)))) ++
    flat_map obj_items (dead_objs w w2) ≡ₚ objs_items w).
  { unfold objs_items, dead_objs. apply dead_split. intros o Ho. apply elem_of_seq in Ho. apply Hal. lia. }
  destruct (trans_objs _ _ _ _ _ _ Htr) as [[He _]|[[He Hl]|(ob & Hob & He & Hl)]].
  - exists []. split; [|auto]. rewrite app_nil_r. unfold objs_items at 1. change (w_vars w2) with (w_vars w'). rewrite He. exact Hold.
  - exists (if obj_alive w2 (length (v_objs (w_vars w))) then obj_items (length (v_objs (w_vars w))) else []). split.
    + unfold objs_items at 1. change (w_vars w2) with (w_vars w'). rewrite He, app_length. cbn [length]. rewrite Nat.add_comm, seq_S, flat_map_app. cbn [flat_map plus]. rewrite app_nil_r.
      rewrite <- Hold, <- !app_assoc. f_equiv. apply Permutation_app_comm.
    + destruct (obj_alive w2 _); [|auto]. unfold obj_items. destruct (e_odtor e _) as [p|] eqn:Ep; [|auto]. right.
      assert (Hst : exists k r, st = FProg (Do (OVar VNewObj) k) :: r) by (eapply makes_obj; eauto).
      destruct Hst as (k & r & ->). eauto 10.
  - exists []. split; [|auto]. rewrite app_nil_r. unfold objs_items at 1. change (w_vars w2) with (w_vars w'). rewrite He, insert_length. exact Hold.
Qed.

Lemma er_room w t st : reachable e ps w -> w_thr w !! t = Some st ->
  forall o s v tgt i n xs r, st = FRet o :: FEraseCmp s v tgt i n xs :: r -> i + n < length xs.
Proof.
  intros Hr Ht o s v tgt i n xs r ->. destruct (I_er_inv _ _ _ Hr _ _ Ht) as [[_ (l & c & Hi & _)] [[(ys & Her & Hn & _) _] _]].
  destruct Her as (during & before & _ & _ & _ & _ & _ & Hp). apply Permutation_length in Hp. rewrite app_length in Hp.
  apply lookup_lt_Some in Hi. lia.
Qed.

Lemma obj_alive_reap w t st D L o : w_thr w !! t = Some st -> dtorish D ->
  obj_alive (w_add_events (w_set_stack w t (D ++ st)) L) o = obj_alive w o.
Proof.
  intros Ht HD. apply eq_bool_prop_intro. rewrite !Is_true_true, !obj_alive_iff. apply or_iff_compat_l. split.
  - intros (t0 & x & f & Hx & Hf & Hk). wcbn_in Hx.
    destruct (thr_upd _ _ _ _ _ _ Ht Hx) as [[-> ->]|[Hn Hx']]; [|eauto 10].
    apply elem_of_app in Hf as [Hf|Hf]; [|eauto 10].
    unfold dtorish in HD. rewrite Forall_forall in HD. destruct (HD _ Hf) as [[? ->]|[p ->]]; discriminate.
  - intros (t0 & x & f & Hx & Hf & Hk). destruct (decide (t0 = t)) as [->|Hn].
    + exists t, (D ++ st), f. wcbn. rewrite list_lookup_insert by (eapply lookup_lt_Some; eauto).
      simplify_eq. split; [auto|]. split; [apply elem_of_app; auto|]. exact Hk.
    + exists t0, x, f. wcbn. rewrite list_lookup_insert_ne by auto. auto.
Qed.
Lemma step_smaller w t m w' : reachable e ps w -> step e w t m = SOk w' -> smaller ilt (all_items w') (all_items w).
Proof.
  intros Hr Hs. destruct (step_trans _ _ _ _ _ Hs) as (st & w1 & st1 & Ht & Htr & -> & _).
  destruct (uses mu e Hmu _ _ _ _ _ Htr (I_good_inv _ Hr _ _ Ht) (er_room _ _ _ Hr Ht)) as (x & xs & ys & E1 & E2 & HF & HB).
  destruct (slots_step _ _ _ _ _ Hr Ht Htr) as (ns & Hns & Hk). destruct (objs_step _ _ _ _ _ Hr Ht Htr) as (no & Hno & Hko).
  destruct (thr_split _ _ _ Ht) as (rest & T1 & T2). pose proof (trans_thr _ _ _ _ _ _ Htr) as Hthr.
  exists x, (xs ++ ns ++ no), (ys ++ rest ++ slot_items w ++ objs_items w). split; [|split].
  - unfold all_items. rewrite T1, E1. cbn. rewrite <- app_assoc. reflexivity.
  - unfold all_items, reap. wcbn. rewrite Hthr, T2.
    set (w2 := mid w1 t st1) in *. change (w_set_stack w1 t st1) with w2. set (D := flat_map (dtor_frames e w2) (dead w w2)).
    assert (HDt : dtorish D) by apply dtorish_frames.
    assert (Ht2 : w_thr w2 !! t = Some st1) by (cbn; rewrite Hthr; apply list_lookup_insert; eapply lookup_lt_Some; eauto).
    assert (Heq : w_set_stack w2 t (D ++ st1) = w_set_stack w1 t (D ++ st1)).
    { unfold w2, mid, w_set_stack, w_set_thr. cbn. rewrite list_insert_insert. reflexivity. }
    set (W := w_add_events _ _).
    assert (Hsl : slot_items W = slot_items w2).
    { pose proof (fun l => alive_reap w2 t st1 D (map EObjDead (dead_objs w w2) ++ map ESlotDead (dead_slots w w2)) l Ht2 HDt) as Ha.
      rewrite Heq in Ha. change (forall l, slot_alive W l = slot_alive w2 l) in Ha. unfold slot_items. change (w_slots W) with (w_slots w2).
      rewrite !flat_map_concat_map. f_equal. apply map_ext. intros l. rewrite Ha. reflexivity. }
    assert (Hob : objs_items W = objs_items w2).
    { pose proof (fun l => obj_alive_reap w2 t st1 D (map EObjDead (dead_objs w w2) ++ map ESlotDead (dead_slots w w2)) l Ht2 HDt) as Ha.
      rewrite Heq in Ha. change (forall l, obj_alive W l = obj_alive w2 l) in Ha. unfold objs_items. change (w_vars W) with (w_vars w2).
      rewrite !flat_map_concat_map. f_equal. apply map_ext. intros l. rewrite Ha. reflexivity. }
    rewrite Hsl, Hob. unfold D. rewrite items_dtors, E2, dead_both.
    trans (xs ++ ys ++ rest ++ (slot_items w2 ++ flat_map (fun l => dead_items w2 (inl l)) (dead_slots w w2)) ++ (objs_items w2 ++ flat_map obj_items (dead_objs w w2))).
    { solve_Permutation. }
    rewrite Hns, Hno. solve_Permutation.
  - apply Forall_app; split; [exact HF|]. apply Forall_app; split.
    + destruct Hk as [->|[(s & v & k & r & ->) Hz]]; [constructor|].
      eapply Forall_impl; [exact Hz|]. intros y Hy. left. rewrite Hy, (HB _ _ _ _ eq_refl). cbn. lia.
    + destruct Hko as [->|(k & r & p & -> & Hp & ->)]; [constructor|]. pose proof (I_good_inv _ Hr _ _ Ht) as [[Hg _] _]. cbn in Hg. apply okp_inv in Hg as [Hg _].
      cbn in E1. injection E1 as <- _. cbn [fst].
      assert (Hlt : llt (Some 3) (lvl mu r)).
      { destruct (lvl mu r) as [n|]; [|exact I]. cbn in Hg |- *. destruct Hg as [_ Hg]. destruct (Hg eq_refl) as [H|H]; [lia|]. exfalso. exact (H _ _ Hp). }
      assert (Hlt0 : llt (Some 0) (lvl mu r)) by (destruct (lvl mu r); cbn in *; [lia|exact I]).
      repeat constructor; assumption.
Qed.

(** ** No run goes on for ever *)
Lemma steps_wf : well_founded (fun w' w => reachable e ps w /\ exists t m, step e w t m = SOk w').
Proof.
  intros w. remember (all_items w) as l eqn:Hl. revert w Hl. induction (smaller_wf ilt ilt_wf l) as [l _ IH]. intros w ->.
  constructor. intros w' [Hr (t & m & Hs)]. eapply IH; [|reflexivity]. eapply step_smaller; eauto.
Qed.

Lemma no_endless (ws : nat -> world) : reachable e ps (ws 0) -> ~ forall i, exists t m, step e (ws i) t m = SOk (ws (S i)).
Proof.
  intros H0 H. assert (Hr : forall i, reachable e ps (ws i)).
  { induction i as [|i IH]; [exact H0|]. destruct (H i) as (t & m & Hs). eapply reachable_step; eauto. }
  assert (Hf : forall w, Acc (fun w' w => reachable e ps w /\ exists t m, step e w t m = SOk w') w -> forall i, w = ws i -> False).
  { induction 1 as [w _ IH]. intros i ->. eapply (IH (ws (S i))); [|reflexivity]. split; [apply Hr|apply H]. }
  apply (Hf (ws 0) (steps_wf _) 0 eq_refl).
Qed.

Lemma first_S f i : first f (S i) = first f i ++ [f i].
Proof. unfold first. rewrite seq_S, map_app. reflexivity. Qed.
Lemma run_prefix f w0 i j : i <= j -> forall u, run e w0 (first f i) = inr u -> run e w0 (first f j) = inr u.
Proof. intros H u Hu. induction H as [|j H IH]; [exact Hu|]. rewrite first_S, run_app, IH. reflexivity. Qed.

(** From step [i] to step [j] either something happens or nothing changes. *)
Lemma idle_or_not f w0 w i : run e w0 (first f i) = inl w -> forall j, i <= j ->
  run e w0 (first f j) = inl w \/
  exists j', i <= j' /\ ((exists u, run e w0 (first f j') = inr u) \/ exists w' t m, step e w t m = SOk w' /\ run e w0 (first f j') = inl w').
Proof.
  intros Hi j Hj. induction Hj as [|j Hj [IH|IH]]; [auto| |auto].
  rewrite first_S, run_app, IH. destruct (f j) as [t m] eqn:Hf. cbn. destruct (step e w t m) as [w'| | |u] eqn:Hs; auto.
  - right. exists (S j). split; [lia|]. right. exists w', t, m. split; [exact Hs|]. rewrite first_S, run_app, IH, Hf. cbn. rewrite Hs. reflexivity.
  - right. exists (S j). split; [lia|]. left. exists u. rewrite first_S, run_app, IH, Hf. cbn. rewrite Hs. reflexivity.
Qed.

Lemma fair_ends f w0 : reachable e ps w0 -> fair (length (w_thr w0)) f ->
  exists i, match run e w0 (first f i) with inl w => all_finished w | inr _ => True end.
Proof.
  intros H0 Hf.
  assert (Hgo : forall w, Acc (fun w' w => reachable e ps w /\ exists t m, step e w t m = SOk w') w ->
    forall i, reachable e ps w -> length (w_thr w) = length (w_thr w0) -> run e w0 (first f i) = inl w ->
    exists i, match run e w0 (first f i) with inl w => all_finished w | inr _ => True end).
  { induction 1 as [w _ IH]. intros i Hr Hlen Hi. destruct (no_stuck _ _ _ Hll Hr) as [Hfin|[t Hm]]; [exists i; rewrite Hi; exact Hfin|].
    assert (Hlt : t < length (w_thr w)).
    { destruct (Hm MOk) as [_ H2]. unfold step in H2. destruct (w_thr w !! t) as [st|] eqn:Ht; [eapply lookup_lt_Some; eauto|congruence]. }
    destruct (Hf t ltac:(lia) i) as (j & Hij & Hj).
    destruct (idle_or_not f w0 w i Hi (S j) ltac:(lia)) as [Hidle|(j' & Hj' & [(u & Hu)|(w' & t1 & m1 & Hs & Hw')])].
    - destruct (idle_or_not f w0 w i Hi j Hij) as [Hj0|(j' & Hj' & [(u & Hu)|(w' & t1 & m1 & Hs & Hw')])].
      + exfalso. rewrite first_S, run_app, Hj0 in Hidle. destruct (f j) as [t2 m2]. cbn in Hj. subst t2. cbn in Hidle. destruct (Hm m2) as [H1 H2].
        destruct (step e w t m2) as [w'| | |u] eqn:Hs; try congruence. injection Hidle as ->.
        apply (no_endless (fun _ => w) Hr). intros _. eauto.
      + exists j'. rewrite Hu. exact I.
      + apply (IH w') with (i := j'); [eauto|eapply reachable_step; eauto| |exact Hw'].
        destruct (step_trans _ _ _ _ _ Hs) as (st & w1 & st1 & _ & Htr & -> & _). unfold reap. wcbn. rewrite insert_length, (trans_thr _ _ _ _ _ _ Htr). exact Hlen.
    - exists j'. rewrite Hu. exact I.
    - apply (IH w') with (i := j'); [eauto|eapply reachable_step; eauto| |exact Hw'].
      destruct (step_trans _ _ _ _ _ Hs) as (st & w1 & st1 & _ & Htr & -> & _). unfold reap. wcbn. rewrite insert_length, (trans_thr _ _ _ _ _ _ Htr). exact Hlen. }
  apply (Hgo w0) with (i := 0); auto. apply steps_wf.
Qed.
End world.
