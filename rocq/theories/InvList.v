(** * The list of slots of each signal *)
From Verif Require Export InvVec.

(** ** Lists *)
Lemma swap_pop_snoc (a : list lid) y i : i <= length a -> swap_pop (a ++ [y]) i = <[i := y]> a.
Proof.
  intros Hi. unfold swap_pop. rewrite last_snoc, app_length. cbn [length].
  replace (length a + 1 - 1) with (length a) by lia.
  destruct (decide (i = length a)) as [->|Hn].
  - rewrite insert_app_r_alt by lia. rewrite Nat.sub_diag. cbn.
    rewrite take_app, list_insert_ge by lia. reflexivity.
  - rewrite insert_app_l by lia. rewrite take_app_alt by (rewrite insert_length; reflexivity). reflexivity.
Qed.

Lemma lookup_snoc_inv (xs : list lid) i x :
  xs !! i = Some x -> exists a y, xs = a ++ [y] /\ i <= length a.
Proof.
  intros H. destruct (exists_last (l := xs)) as (a & y & ->).
  - intros ->. discriminate.
  - exists a, y. split; auto. apply lookup_lt_Some in H. rewrite app_length in H. cbn in H. lia.
Qed.

Lemma swap_pop_remove xs i x : NoDup xs -> xs !! i = Some x -> swap_pop xs i = swap_remove x xs.
Proof.
  intros Hnd Hi. destruct (lookup_snoc_inv _ _ _ Hi) as (a & y & -> & Hle).
  rewrite swap_pop_snoc by auto. unfold swap_remove.
  rewrite decide_True by (eapply elem_of_list_lookup_2; eauto).
  rewrite last_snoc, app_length. cbn [length]. replace (length a + 1 - 1) with (length a) by lia.
  rewrite take_app. apply NoDup_app in Hnd as (Ha & Hd & _).
  apply list_eq. intros j. rewrite list_lookup_fmap.
  destruct (decide (i = length a)) as [->|Hn].
  - rewrite list_insert_ge by lia. rewrite lookup_app_r, Nat.sub_diag in Hi by lia. cbn in Hi. simplify_eq.
    destruct (a !! j) as [z|] eqn:Hj; cbn; [|reflexivity].
    rewrite decide_False; [reflexivity|]. intros ->. eapply Hd; [eapply elem_of_list_lookup_2; eauto|set_solver].
  - rewrite lookup_app_l in Hi by lia. destruct (decide (i = j)) as [->|Hij].
    + rewrite list_lookup_insert by lia. rewrite Hi. cbn. rewrite decide_True by auto. reflexivity.
    + rewrite list_lookup_insert_ne by auto. destruct (a !! j) as [z|] eqn:Hj; cbn; [|reflexivity].
      rewrite decide_False; [reflexivity|]. intros ->. apply Hij. eapply NoDup_lookup; eauto.
Qed.

Lemma swap_pop_perm xs i x : xs !! i = Some x -> xs ≡ₚ x :: swap_pop xs i.
Proof.
  intros Hi. destruct (lookup_snoc_inv _ _ _ Hi) as (a & y & -> & Hle).
  rewrite swap_pop_snoc by auto. destruct (decide (i = length a)) as [->|Hn].
  - rewrite lookup_app_r, Nat.sub_diag in Hi by lia. cbn in Hi. simplify_eq.
    rewrite list_insert_ge by lia. rewrite Permutation_app_comm. reflexivity.
  - rewrite lookup_app_l in Hi by lia.
    rewrite (Permutation_app_comm a [y]). cbn.
    rewrite <- (take_drop_middle a i x) at 1 by auto.
    rewrite insert_take_drop by lia.
    rewrite <- !Permutation_middle. apply perm_swap.
Qed.

Lemma swap_pop_elem xs i x l : NoDup xs -> xs !! i = Some x -> (l ∈ swap_pop xs i <-> l ∈ xs /\ l <> x).
Proof.
  intros Hnd Hi. pose proof (swap_pop_perm _ _ _ Hi) as Hp.
  assert (Hnd' : NoDup (x :: swap_pop xs i)) by (rewrite <- Hp; auto).
  apply NoDup_cons in Hnd' as [Hx _].
  assert (He : l ∈ xs <-> l ∈ x :: swap_pop xs i) by (rewrite <- Hp; reflexivity).
  rewrite He, elem_of_cons. split; [intros Hl; split; [auto|intros ->; auto]|intros [[->|?] ?]; congruence].
Qed.

Lemma swap_pop_NoDup xs i x : NoDup xs -> xs !! i = Some x -> NoDup (swap_pop xs i).
Proof.
  intros Hnd Hi. pose proof (swap_pop_perm _ _ _ Hi) as Hp.
  assert (H : NoDup (x :: swap_pop xs i)) by (rewrite <- Hp; exact Hnd).
  apply NoDup_cons in H as [_ H]. exact H.
Qed.

Lemma swap_pop_lookup xs i x j l :
  NoDup xs -> xs !! i = Some x -> swap_pop xs i !! j = Some l ->
  (j = i /\ last xs = Some l) \/ (j <> i /\ xs !! j = Some l /\ last xs <> Some l).
Proof.
  intros Hnd Hi Hj. destruct (lookup_snoc_inv _ _ _ Hi) as (a & y & -> & Hle).
  rewrite swap_pop_snoc in Hj by auto. rewrite last_snoc.
  apply NoDup_app in Hnd as (Ha & Hd & _).
  assert (Hya : forall z, z ∈ a -> z <> y) by (intros z Hz ->; eapply Hd; [eauto|set_solver]).
  destruct (decide (i = j)) as [<-|Hij].
  - left. split; auto. destruct (decide (i = length a)) as [->|Hn].
    + rewrite list_insert_ge in Hj by lia. apply lookup_lt_Some in Hj. lia.
    + rewrite list_lookup_insert in Hj by lia. congruence.
  - right. rewrite list_lookup_insert_ne in Hj by auto. split; [auto|]. split.
    + apply lookup_app_l_Some; auto.
    + intros H. simplify_eq. eapply Hya; eauto. eapply elem_of_list_lookup_2; eauto.
Qed.

(** ** Current lists *)
Definition cur (w : world) (s : sid) : list lid :=
  match w_sigs w !! s with
  | Some r => match sg_vec r with Some v => vec_of w v | None => [] end
  | None => []
  end.

Lemma cur_own w s v : own w s v -> cur w s = vec_of w v.
Proof. intros (r & Hr & _ & Hv). unfold cur. rewrite Hr, Hv. reflexivity. Qed.

Lemma vec_of_lookup w v l : l ∈ vec_of w v -> exists xs, w_vecs w !! v = Some xs /\ vec_of w v = xs /\ l ∈ xs.
Proof. unfold vec_of. destruct (w_vecs w !! v) as [xs|]; cbn; [eauto|]. intros H; inversion H. Qed.

Lemma vec_of_set w v xs v' :
  v < length (w_vecs w) ->
  vec_of (w_set_vec w v xs) v' = if decide (v = v') then xs else vec_of w v'.
Proof.
  intros Hv. unfold vec_of. wcbn. destruct (decide (v = v')) as [<-|Hn].
  - rewrite list_lookup_insert by auto. reflexivity.
  - rewrite list_lookup_insert_ne by auto. reflexivity.
Qed.

Lemma vec_of_ext w w' v : w_vecs w' = w_vecs w -> vec_of w' v = vec_of w v.
Proof. unfold vec_of. intros ->. reflexivity. Qed.

Lemma vec_of_snoc w w' v x : w_vecs w' = w_vecs w ++ [x] -> v < length (w_vecs w) -> vec_of w' v = vec_of w v.
Proof. unfold vec_of. intros -> Hv. rewrite lookup_app_l by auto. reflexivity. Qed.

Lemma vec_of_snoc_new w w' x : w_vecs w' = w_vecs w ++ [x] -> vec_of w' (length (w_vecs w)) = x.
Proof. unfold vec_of. intros ->. rewrite lookup_app_r, Nat.sub_diag by lia. reflexivity. Qed.

Lemma cur_ext w w' s : w_vecs w' = w_vecs w -> w_sigs w' = w_sigs w -> cur w' s = cur w s.
Proof. unfold cur. intros Hv ->. case_match; [|reflexivity]. case_match; [|reflexivity]. apply vec_of_ext; auto. Qed.

Lemma cur_alter w f s0 s : (forall r, sg_vec (f r) = sg_vec r) -> cur (w_alter_sig w s0 f) s = cur w s.
Proof.
  intros Hf. unfold cur. wcbn. rewrite alter_lookup. destruct (decide (s0 = s)) as [->|]; [|reflexivity].
  destruct (w_sigs w !! s) as [r|]; cbn; [rewrite Hf|]; reflexivity.
Qed.

Lemma cur_set_vec w s v xs s' :
  I_bound w -> own w s v -> cur (w_set_vec w v xs) s' = if decide (s = s') then xs else cur w s'.
Proof.
  intros (Hb1 & _ & Hb3 & _) (r & Hr & Ha & Hv).
  assert (Hlt : v < length (w_vecs w)) by eauto.
  unfold cur. wcbn. destruct (decide (s = s')) as [<-|Hn].
  - rewrite Hr, Hv. rewrite vec_of_set by auto. rewrite decide_True by auto. reflexivity.
  - destruct (w_sigs w !! s') as [r'|] eqn:Hr'; [|reflexivity].
    destruct (sg_vec r') as [v'|] eqn:Hv'; [|reflexivity].
    rewrite vec_of_set by auto. rewrite decide_False; [reflexivity|]. intros <-. eauto.
Qed.

Lemma cur_dsp w s v i s' x :
  I_bound w -> own w s v -> vec_of w v !! i = Some x ->
  cur (do_swap_pop w v i) s' = if decide (s = s') then swap_pop (cur w s) i else cur w s'.
Proof.
  intros HB Ho Hi. destruct (lookup_snoc_inv _ _ _ Hi) as (a & y & Hxs & _).
  unfold do_swap_pop. rewrite Hxs, last_snoc, <- Hxs.
  rewrite (cur_ext (w_set_vec w v (swap_pop (vec_of w v) i))) by reflexivity.
  rewrite (cur_set_vec w s v) by auto. rewrite (cur_own w s v) by auto. reflexivity.
Qed.

(** ** How a step changes the current lists *)
Inductive list_change (e : env) (w : world) (t : tid) (st : list frame) (w' : world) : Prop :=
| LC_same :
    (forall s, cur w' s = cur w s) -> 
    (forall s, spec_list (w_log w') s = spec_list (w_log w) s) ->
    (forall l r', w_slots w' !! l = Some r' -> exists r, w_slots w !! l = Some r /\ im_idx (sl_impl r') = im_idx (sl_impl r) /\
        sl_sig r' = sl_sig r) ->
    length (w_slots w') = length (w_slots w) ->
    list_change e w t st w'
| LC_move s0 st0 :
    st = FWrite s0 KMove :: st0 -> s0 < length (w_sigs w) ->
    w_log w' = EMoveSig s0 (length (w_sigs w)) :: w_log w ->
    (forall s, cur w' s = if decide (s = length (w_sigs w)) then cur w s0
                          else if decide (s = s0) then [] else cur w s) ->
    w_slots w' = w_slots w -> list_change e w t st w'
| LC_add s v i st0 :
    st = FBody s v (KAdd i) :: st0 -> own w s v ->
    w_log w' = EConn t s (length (w_slots w)) (im_set_idx (length (cur w s)) i) :: w_log w ->
    (forall s', cur w' s' = if decide (s = s') then cur w s ++ [length (w_slots w)] else cur w s') ->
    w_slots w' = w_slots w ++ [SlotRec (im_set_idx (length (cur w s)) i) s] ->
    list_change e w t st w'
| LC_rem s v i l x :
    own w s v -> cur w s !! i = Some l ->
    ((exists r st0 , st = FBody s v (KRem x) :: st0 /\ w_slots w !! x = Some r /\ im_idx (sl_impl r) = i /\
        w_log w' = ERem t s x l :: w_log w)
     \/ (exists tgt n xs0 st0, st = FRet (OutBool true) :: FEraseCmp s v tgt i n xs0 :: st0 /\
         w_log w' = EErased t s l :: w_log w)) ->
    (forall s', cur w' s' = if decide (s = s') then swap_pop (cur w s) i else cur w s') ->
    (exists y, last (cur w s) = Some y /\ w_slots w' = alter (on_impl (im_set_idx i)) y (w_slots w)) ->
    list_change e w t st w'.

Lemma cc_log w r : w_log (clear_conn w r) = w_log w \/
  exists l i, r = RSlot l /\ get_ref w r = Some i /\ im_conn i = true /\ w_log (clear_conn w r) = EFlag l :: w_log w.
Proof.
  unfold clear_conn. destruct r as [l|u].
  - destruct (get_ref w (RSlot l)) as [i|] eqn:Hi; [|left; reflexivity].
    destruct (im_conn i) eqn:Hc; [|left; reflexivity]. right. exists l, i. auto.
  - left. destruct (get_ref w (RUser u)); reflexivity.
Qed.

Lemma vop_ev w t v x o ev :
  exec_vop w t v = VOk x o (EfLog ev) ->
  (exists l, ev = EConnd t l (slot_alive w l && slot_connected w l) /\ x = w_vars w) \/
  (exists l, ev = EBlkd t l (slot_alive w l && slot_blocked w l) /\ x = w_vars w) \/
  (exists l, ev = EValid t l (slot_alive w l) /\ x = w_vars w) \/
  (exists ob, ev = ENewObj ob /\ ob = length (v_objs (w_vars w)) /\ x = set_objs (w_vars w) (v_objs (w_vars w) ++ [true])) \/
  (exists ob, ev = EReset ob /\ v_objs (w_vars w) !! ob = Some true /\ x = set_objs (w_vars w) (<[ob := false]> (v_objs (w_vars w)))).
Proof.
  unfold exec_vop, disc_res, blk_eff. intros H.
  destruct v; try discriminate; repeat (dm H; try discriminate); simplify_eq; eauto 10 using eq_refl.
Qed.

Lemma on_impl_lookup (slots : list slotrec) f l0 l r' :
  alter (on_impl f) l0 slots !! l = Some r' ->
  exists r, slots !! l = Some r /\ sl_sig r' = sl_sig r /\
    (r' = r \/ (l = l0 /\ sl_impl r' = f (sl_impl r))).
Proof.
  rewrite alter_lookup. destruct (decide (l0 = l)) as [->|Hn].
  - destruct (slots !! l) as [r|]; cbn; intros H; simplify_eq. exists r. auto.
  - intros H. exists r'. auto.
Qed.

Lemma on_impl_keep (slots : list slotrec) f l0 l r' :
  (forall i, im_idx (f i) = im_idx i) ->
  alter (on_impl f) l0 slots !! l = Some r' ->
  exists r, slots !! l = Some r /\ im_idx (sl_impl r') = im_idx (sl_impl r) /\ sl_sig r' = sl_sig r.
Proof.
  intros Hf H. destruct (on_impl_lookup _ _ _ _ _ H) as (r & Hr & Hs & [->|[-> Hi]]); exists r; auto.
  rewrite Hi, Hf. auto.
Qed.

Lemma aref_keep w r f l r' :
  (forall i, im_idx (f i) = im_idx i) ->
  w_slots (alter_ref w r f) !! l = Some r' ->
  exists r, w_slots w !! l = Some r /\ im_idx (sl_impl r') = im_idx (sl_impl r) /\ sl_sig r' = sl_sig r.
Proof.
  intros Hf. destruct r as [l0|u]; cbn; [apply on_impl_keep; auto|]. eauto.
Qed.

Lemma trans_cur e ps w t st w' st' :
  reachable e ps w -> w_thr w !! t = Some st -> trans e w t st w' st' -> list_change e w t st w'.
Proof.
  intros Hr Ht Htr.
  pose proof (I_bound_inv _ _ _ Hr) as HB. pose proof (I_crit_inv _ _ _ Hr) as HC.
  pose proof (I_lock_inv _ _ _ Hr) as HL.
  assert (Hown : forall f s v, f ∈ st -> crit_vec f = Some (s, v) -> own w s v).
  { intros f s v Hf Hc. pose proof (HC _ _ Ht) as HF. rewrite Forall_forall in HF. specialize (HF _ Hf).
    unfold fr_crit in HF. rewrite Hc in HF. apply HF. }
  destruct Htr;
    try (apply LC_same; [intros; apply cur_ext; wcbn; autorewrite with wsimp; reflexivity
                        |intros; wcbn; autorewrite with wsimp; cbn; reflexivity
                        |wcbn; autorewrite with wsimp; intros; eauto using on_impl_keep, aref_keep
                        |wcbn; autorewrite with wsimp; rewrite ?alter_length; reflexivity]; fail).
  - (* vblk *) apply LC_same; try (intros; reflexivity); wcbn.
    + intros l0 r'. apply on_impl_keep. reflexivity.
    + rewrite alter_length. reflexivity.
  - (* vlog *) apply LC_same; try (intros; reflexivity).
    + intros s. wcbn. apply vop_ev in H; destruct_or?; destruct_and?; naive_solver.
    + intros l r'. wcbn. eauto.
  - (* vheld *) apply LC_same; try (intros; reflexivity).
    + intros s. wcbn. apply vop_ev in H; destruct_or?; destruct_and?; naive_solver.
    + intros l0 r'. wcbn. eauto.
  - (* new *) apply LC_same; try (intros; reflexivity).
    + intros s. destruct HB as (Hb1 & _). unfold cur. wcbn.
      destruct (decide (s < length (w_sigs w))) as [Hl|Hl].
      * rewrite lookup_app_l by auto. destruct (w_sigs w !! s) as [r|] eqn:Hs; [|reflexivity].
        destruct (sg_vec r) as [v|] eqn:Hv; [|reflexivity].
        eapply vec_of_snoc; [reflexivity|]. eauto.
      * rewrite (lookup_ge_None_2 (w_sigs w)) by lia. rewrite lookup_app_r by lia.
        destruct (s - length (w_sigs w)); cbn; [|reflexivity].
        eapply vec_of_snoc_new. reflexivity.
    + intros l r'. wcbn. eauto.
  - (* destroy *) apply LC_same; try (intros; reflexivity); [|intros l r'; wcbn; eauto].
    intros s0. rewrite (cur_ext (w_alter_sig w s (sg_set_alive false))) by reflexivity.
    apply cur_alter. reflexivity.
  - (* selfset *) apply LC_same; wcbn; autorewrite with wsimp; try reflexivity.
    + intros; apply cur_ext; wcbn; autorewrite with wsimp; reflexivity.
    + intros l0 r'. apply aref_keep. reflexivity.
  - (* dead *) apply LC_same; [intros; apply cur_ext; wcbn; autorewrite with wsimp; reflexivity
                        |
                        |wcbn; autorewrite with wsimp; intros ? ?; apply aref_keep; reflexivity
                        |wcbn; autorewrite with wsimp; rewrite ?alter_length; reflexivity].
    intros s. wcbn. cbn. destruct (cc_log w r) as [->|(l & i0 & _ & _ & _ & ->)]; reflexivity.
  - (* disc *) apply LC_same; try (intros; reflexivity); wcbn.
    + intros l0 r'. apply on_impl_keep. reflexivity.
    + rewrite alter_length. reflexivity.
  - (* lock *) apply LC_same; try (intros; reflexivity); [|intros l r'; wcbn; eauto].
    intros s0. apply cur_alter. reflexivity.
  - (* move *) eapply LC_move; [reflexivity|eapply lookup_lt_Some; eauto|reflexivity| |reflexivity].
    intros s0. unfold cur. wcbn. destruct (decide (s0 = length (w_sigs w))) as [->|Hn].
    + rewrite lookup_app_r by (rewrite alter_length; lia). rewrite alter_length, Nat.sub_diag. cbn.
      rewrite H. reflexivity.
    + destruct (decide (s0 < length (w_sigs w))) as [Hlt|Hlt].
      * rewrite lookup_app_l by (rewrite alter_length; auto). rewrite alter_lookup.
        destruct (decide (s = s0)) as [->|Hne].
        -- rewrite H. cbn. rewrite decide_True by auto. reflexivity.
        -- rewrite (decide_False (P := s0 = s)) by auto. reflexivity.
      * rewrite (lookup_ge_None_2 (_ ++ _)) by (rewrite app_length, alter_length; cbn; lia).
        rewrite (lookup_ge_None_2 (w_sigs w)) by lia. destruct (decide (s0 = s)); reflexivity.
  - (* read *) apply LC_same; try (intros; reflexivity); [|intros l r'; wcbn; eauto].
    intros s0. rewrite (cur_ext (w_alter_sig w s (sg_set_lock None))) by reflexivity.
    apply cur_alter. reflexivity.
  - (* detach *) destruct HB as (Hb1 & _). apply LC_same; try (intros; reflexivity); [|intros l r'; wcbn; eauto].
    intros s0. unfold cur. wcbn. rewrite alter_lookup. destruct (decide (s = s0)) as [<-|Hn].
    + rewrite H. cbn. rewrite H0. eapply vec_of_snoc_new; reflexivity.
    + destruct (w_sigs w !! s0) as [r0|] eqn:Hs; [|reflexivity].
      destruct (sg_vec r0) as [v0|] eqn:Hv; [|reflexivity]. eapply vec_of_snoc; [reflexivity|]. eauto.
  - (* add *) assert (Ho : own w s v) by (eapply Hown; [apply elem_of_list_here|reflexivity]).
    eapply LC_add; [reflexivity|exact Ho| | |]; rewrite (cur_own w s v Ho); try reflexivity.
    intros s'. rewrite (cur_ext (w_set_vec w v (vec_of w v ++ [length (w_slots w)]))) by reflexivity.
    apply cur_set_vec; auto.
  - (* rem *) assert (Ho : own w s v) by (eapply Hown; [apply elem_of_list_here|reflexivity]).
    destruct (lookup_snoc_inv _ _ _ H0) as (a & y & Hxs & _).
    eapply (LC_rem _ _ _ _ _ s v (im_idx (sl_impl r)) l' l); [exact Ho|rewrite (cur_own w s v Ho); auto| | |].
    + left. exists r, st. wcbn. autorewrite with wsimp. auto.
    + intros s'. rewrite (cur_ext (do_swap_pop w v (im_idx (sl_impl r)))) by reflexivity. eapply cur_dsp; eauto.
    + exists y. rewrite (cur_own w s v Ho). rewrite Hxs, last_snoc. split; [reflexivity|].
      wcbn. unfold do_swap_pop. rewrite Hxs, last_snoc. reflexivity.
  - (* unlock *) apply LC_same; try (intros; reflexivity); [|intros l r'; wcbn; eauto].
    intros s0. apply cur_alter. reflexivity.
  - (* cmp_true *) assert (Ho : own w s v) by (eapply (Hown (FEraseCmp s v tgt i n xs0)); [apply elem_of_list_further, elem_of_list_here|reflexivity]).
    destruct (lookup_snoc_inv _ _ _ H) as (a & y & Hxs & _).
    eapply (LC_rem _ _ _ _ _ s v i l 0); [exact Ho|rewrite (cur_own w s v Ho); auto| | |].
    + right. exists tgt, n, xs0, st. wcbn. autorewrite with wsimp. auto.
    + intros s'. rewrite (cur_ext (do_swap_pop w v i)) by reflexivity. eapply cur_dsp; eauto.
    + exists y. rewrite (cur_own w s v Ho). rewrite Hxs, last_snoc. split; [reflexivity|].
      wcbn. unfold do_swap_pop. rewrite Hxs, last_snoc. reflexivity.
Qed.

(** ** The invariant *)
Definition I_list (w : world) : Prop :=
  (forall v xs, w_vecs w !! v = Some xs -> NoDup xs /\ forall l, l ∈ xs -> l < length (w_slots w)) /\
  (forall s i l, cur w s !! i = Some l -> exists r, w_slots w !! l = Some r /\ im_idx (sl_impl r) = i) /\
  (forall s1 s2 l, l ∈ cur w s1 -> l ∈ cur w s2 -> s1 = s2) /\
  (forall s, cur w s = spec_list (w_log w) s).

Lemma spec_list_dead L log s : deadish L -> spec_list (L ++ log) s = spec_list log s.
Proof. intros HL. induction HL as [|x L [[l ->]|[o ->]] _ IH]; cbn; auto. Qed.

Lemma cur_vec w s l : l ∈ cur w s -> exists v xs, w_vecs w !! v = Some xs /\ cur w s = xs.
Proof.
  unfold cur. destruct (w_sigs w !! s) as [r|]; [|intros H; inversion H].
  destruct (sg_vec r) as [v|]; [|intros H; inversion H].
  unfold vec_of. destruct (w_vecs w !! v) as [xs|] eqn:Hv; cbn; [eauto|intros H; inversion H].
Qed.

(** How a step changes the vectors. *)
Inductive vec_change (w w' : world) (v : vid) (xs : list lid) : Prop :=
| VC_same : w_vecs w !! v = Some xs -> vec_change w w' v xs
| VC_new : xs = [] -> v = length (w_vecs w) -> vec_change w w' v xs
| VC_copy v0 : xs = vec_of w v0 -> v = length (w_vecs w) -> vec_change w w' v xs
| VC_add s : own w s v -> xs = vec_of w v ++ [length (w_slots w)] ->
    length (w_slots w') = S (length (w_slots w)) -> vec_change w w' v xs
| VC_rem s i x : own w s v -> vec_of w v !! i = Some x -> xs = swap_pop (vec_of w v) i -> vec_change w w' v xs.

Lemma dsp_vecs w v i x : vec_of w v !! i = Some x ->
  w_vecs (do_swap_pop w v i) = <[v := swap_pop (vec_of w v) i]> (w_vecs w).
Proof.
  intros Hi. destruct (lookup_snoc_inv _ _ _ Hi) as (a & y & Hxs & _).
  unfold do_swap_pop. rewrite Hxs, last_snoc. rewrite <- Hxs. reflexivity.
Qed.

Lemma insert_lookup_Some {A} (l : list A) i x j y :
  <[i := x]> l !! j = Some y -> (j = i /\ y = x /\ i < length l) \/ (j <> i /\ l !! j = Some y).
Proof. intros H. apply list_lookup_insert_Some in H as [(<- & <- & Hl)|[Hn H]]; auto. Qed.

Lemma trans_vecs e ps w t st w' st' v xs :
  reachable e ps w -> w_thr w !! t = Some st -> trans e w t st w' st' ->
  w_vecs w' !! v = Some xs -> vec_change w w' v xs.
Proof.
  intros Hr Ht Htr Hv.
  pose proof (I_crit_inv _ _ _ Hr) as HC.
  assert (Hown : forall f s v, f ∈ st -> crit_vec f = Some (s, v) -> own w s v).
  { intros f s v0 Hf Hc. pose proof (HC _ _ Ht) as HF. rewrite Forall_forall in HF. specialize (HF _ Hf).
    unfold fr_crit in HF. rewrite Hc in HF. apply HF. }
  destruct Htr; wcbn_in Hv; autorewrite with wsimp in Hv; try (apply VC_same; exact Hv).
  - apply snoc_lookup in Hv as [[Hv _]|[-> ->]]; [apply VC_same; auto|apply VC_new; auto].
  - apply snoc_lookup in Hv as [[Hv _]|[-> ->]]; [apply VC_same; auto|eapply VC_copy; auto].
  - apply insert_lookup_Some in Hv as [(-> & -> & _)|[_ Hv]]; [|apply VC_same; auto].
    eapply (VC_add _ _ _ _ s); auto.
    + eapply Hown; [apply elem_of_list_here|reflexivity].
    + wcbn. rewrite app_length. cbn. lia.
  - erewrite dsp_vecs in Hv by eauto.
    apply insert_lookup_Some in Hv as [(-> & -> & _)|[_ Hv]]; [|apply VC_same; auto].
    eapply (VC_rem _ _ _ _ s); eauto. eapply Hown; [apply elem_of_list_here|reflexivity].
  - erewrite dsp_vecs in Hv by eauto.
    apply insert_lookup_Some in Hv as [(-> & -> & _)|[_ Hv]]; [|apply VC_same; auto].
    eapply (VC_rem _ _ _ _ s); eauto. eapply (Hown (FEraseCmp s v0 tgt i n xs0)); [|reflexivity].
    apply elem_of_list_further, elem_of_list_here.
Qed.

Lemma trans_slots_len e w t st w' st' : trans e w t st w' st' -> length (w_slots w) <= length (w_slots w').
Proof.
  destruct 1; wcbn; autorewrite with wsimp; rewrite ?app_length, ?alter_length; cbn; try lia.
Qed.

Lemma I_list_inv e ps w : reachable e ps w -> I_list w.
Proof.
  apply reach_ind2.
  - split; [|split; [|split]].
    + intros v xs H. discriminate.
    + intros s i l H. discriminate.
    + intros s1 s2 l H. cbn in H. inversion H.
    + reflexivity.
  - clear w. intros w t st w' st' Hr (H1 & H2 & H3 & H4) Ht Htr.
    pose proof (I_bound_inv _ _ _ Hr) as HB.
    pose proof (trans_slots_len _ _ _ _ _ _ Htr) as Hlen.
    assert (Hvof : forall v, NoDup (vec_of w v) /\ forall l, l ∈ vec_of w v -> l < length (w_slots w)).
    { intros v. unfold vec_of. destruct (w_vecs w !! v) as [xs|] eqn:Hv; cbn; [eauto|].
      split; [constructor|intros l Hl; inversion Hl]. }
    assert (H1' : forall v xs, w_vecs w' !! v = Some xs -> NoDup xs /\ forall l, l ∈ xs -> l < length (w_slots w')).
    { intros v xs Hv. destruct (trans_vecs _ _ _ _ _ _ _ _ _ Hr Ht Htr Hv) as [Ho| -> -> |v0 -> -> |s Ho -> Hl|s i x Ho Hi ->].
      - destruct (H1 _ _ Ho) as [Ha Hb]. split; auto. intros l Hl. specialize (Hb l Hl). lia.
      - split; [constructor|intros l Hl; inversion Hl].
      - destruct (Hvof v0) as [Ha Hb]. split; auto. intros l Hl. specialize (Hb l Hl). lia.
      - destruct (Hvof v) as [Ha Hb]. split.
        + apply NoDup_app. split; [auto|]. split; [|apply NoDup_singleton].
          intros l Hin Hx. apply elem_of_list_singleton in Hx as ->. specialize (Hb _ Hin). lia.
        + intros l Hin. apply elem_of_app in Hin as [Hin|Hin]; [specialize (Hb _ Hin); lia|].
          apply elem_of_list_singleton in Hin as ->. lia.
      - destruct (Hvof v) as [Ha Hb]. split; [eapply swap_pop_NoDup; eauto|].
        intros l Hin. apply (swap_pop_elem _ _ _ _ Ha Hi) in Hin as [Hin _]. specialize (Hb _ Hin). lia. }
    assert (Hcnd : forall s, NoDup (cur w s) /\ forall l, l ∈ cur w s -> l < length (w_slots w)).
    { intros s. unfold cur. destruct (w_sigs w !! s) as [r|]; [|split; [constructor|intros l Hl; inversion Hl]].
      destruct (sg_vec r) as [v|]; [apply Hvof|split; [constructor|intros l Hl; inversion Hl]]. }
    split; [exact H1'|].
    destruct (trans_cur _ _ _ _ _ _ _ Hr Ht Htr) as
      [Hc Hs Hi Hl|s0 st0 -> Hs0 Hlog Hc Hsl|s v i st0 -> Ho Hlog Hc Hsl|s v i l x Ho Hi Hlog Hc (y & Hy & Hsl)].
    + split; [|split].
      * intros s i l Hx. rewrite (cur_ext w' (mid w' t st') s) in Hx by reflexivity. rewrite Hc in Hx.
        destruct (H2 _ _ _ Hx) as (r & Hr0 & Hidx).
        assert (Hlt : l < length (w_slots w')) by (rewrite Hl; eapply lookup_lt_Some; eauto).
        apply lookup_lt_is_Some in Hlt as [r' Hr']. exists r'. split; [exact Hr'|].
        destruct (Hi _ _ Hr') as (r1 & Hr1 & Hi1 & _). congruence.
      * intros s1 s2 l. rewrite !(cur_ext w' (mid w' t st')) by reflexivity. rewrite !Hc. eauto.
      * intros s. rewrite (cur_ext w' (mid w' t st')) by reflexivity. rewrite Hc, H4. symmetry. apply Hs.
    + split; [|split].
      * intros s i l. rewrite !(cur_ext w' (mid w' t st')) by reflexivity. rewrite Hc. wcbn. rewrite Hsl.
        destruct (decide (s = length (w_sigs w))); [eauto|].
        destruct (decide (s = s0)); [discriminate|eauto].
      * intros s1 s2 l. rewrite !(cur_ext w' (mid w' t st')) by reflexivity. rewrite !Hc.
        assert (Hnone : forall s, s = length (w_sigs w) -> cur w s = []).
        { intros s ->. unfold cur. rewrite (lookup_ge_None_2 (w_sigs w)) by lia. reflexivity. }
        destruct (decide (s1 = length (w_sigs w))), (decide (s2 = length (w_sigs w))); subst; auto;
          repeat (case_decide; subst); intros Ha Hb; try (inversion Ha; fail); try (inversion Hb; fail); eauto.
        -- exfalso. specialize (H3 _ _ _ Ha Hb). congruence.
        -- exfalso. specialize (H3 _ _ _ Ha Hb). congruence.
      * intros s. rewrite !(cur_ext w' (mid w' t st')) by reflexivity. rewrite Hc. wcbn. rewrite Hlog. cbn.
        repeat case_decide; auto.
    + split; [|split].
      * intros s' j l. rewrite !(cur_ext w' (mid w' t st')) by reflexivity. rewrite Hc. wcbn. rewrite Hsl.
        intros Hj. destruct (decide (s = s')) as [<-|Hn].
        -- apply snoc_lookup in Hj as [[Hj Hlt]|[-> ->]].
           ++ destruct (H2 _ _ _ Hj) as (r & Hr0 & Hidx). exists r. split; [|auto].
              apply lookup_app_l_Some. auto.
           ++ eexists. rewrite lookup_app_r, Nat.sub_diag by lia. split; reflexivity.
        -- destruct (H2 _ _ _ Hj) as (r & Hr0 & Hidx). exists r. split; [|auto].
           apply lookup_app_l_Some. auto.
      * intros s1 s2 l. rewrite !(cur_ext w' (mid w' t st')) by reflexivity. rewrite !Hc.
        assert (Hnew : forall s', length (w_slots w) ∈ cur w s' -> False).
        { intros s' Hin. destruct (Hcnd s') as [_ Hb]. specialize (Hb _ Hin). lia. }
        repeat case_decide; subst; auto; rewrite ?elem_of_app, ?elem_of_list_singleton;
          intros Ha Hb; destruct_or?; subst; eauto; try (exfalso; eauto; fail).
      * intros s'. rewrite !(cur_ext w' (mid w' t st')) by reflexivity. rewrite Hc. wcbn. rewrite Hlog. cbn.
        case_decide; subst; rewrite ?H4; auto.
    + destruct (Hcnd s) as [Hnd Hlt].
      assert (Hyin : y ∈ cur w s) by (apply last_Some_elem_of; auto).
      split; [|split].
      * intros s' j z. rewrite !(cur_ext w' (mid w' t st')) by reflexivity. rewrite Hc. wcbn. rewrite Hsl.
        intros Hj. destruct (decide (s = s')) as [<-|Hn].
        -- destruct (swap_pop_lookup _ _ _ _ _ Hnd Hi Hj) as [[-> Hlast]|(Hji & Hj' & Hlast)].
           ++ assert (z = y) as -> by congruence.
              assert (Hsy : is_Some (w_slots w !! y)) by (apply lookup_lt_is_Some; auto).
              destruct Hsy as [r Hry]. exists (on_impl (im_set_idx i) r). rewrite alter_lookup, decide_True by auto. rewrite Hry.
              split; reflexivity.
           ++ destruct (H2 _ _ _ Hj') as (r & Hr0 & Hidx). exists r. split; [|auto].
              rewrite alter_lookup, decide_False by congruence. auto.
        -- destruct (H2 _ _ _ Hj) as (r & Hr0 & Hidx). exists r. split; [|auto].
           assert (Hyz : y <> z).
           { intros ->. apply Hn. eapply H3; [exact Hyin|]. eapply elem_of_list_lookup_2; eauto. }
           rewrite alter_lookup, decide_False by exact Hyz. exact Hr0.
      * intros s1 s2 z. rewrite !(cur_ext w' (mid w' t st')) by reflexivity. rewrite !Hc.
        intros Ha Hb. assert (Hsub : forall s', z ∈ (if decide (s = s') then swap_pop (cur w s) i else cur w s') -> z ∈ cur w s').
        { intros s' Hin. destruct (decide (s = s')) as [<-|]; [|exact Hin]. apply (swap_pop_elem _ _ _ _ Hnd Hi) in Hin as [? _]. auto. }
        eauto.
      * intros s'. rewrite !(cur_ext w' (mid w' t st')) by reflexivity. rewrite Hc. wcbn.
        assert (Hsp : swap_pop (cur w s) i = swap_remove l (cur w s)) by (apply swap_pop_remove; auto).
        destruct Hlog as [(r & st0 & _ & _ & _ & ->)|(tgt & n & xs0 & st0 & _ & ->)]; cbn;
          case_decide; subst; rewrite ?Hsp, ?H4; auto.
  - clear w. intros w t st D L (H1 & H2 & H3 & H4) Ht HD HL.
    split; [exact H1|]. split; [exact H2|]. split; [exact H3|].
    intros s. wcbn. rewrite spec_list_dead by auto. apply H4.
Qed.
