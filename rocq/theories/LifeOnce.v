(** * A slot object is made once and destroyed once *)
From Verif Require Import InvDeath InvFields.
From Verif Require Export LifeStep.

Lemma acc_lt tr i l b : accesses tr i l b -> i < length tr.
Proof. intros [t H]. eapply lookup_lt_Some; eauto. Qed.
Lemma acc_split tr t as_ i l b : accesses (tr ++ blk t as_) i l b ->
  accesses tr i l b \/ (length tr <= i /\ as_ !! (i - length tr) = Some (if b then Wr l else Rd l)).
Proof.
  intros [u Hu]. destruct (decide (i < length tr)) as [Hi|Hi].
  - rewrite lookup_app_l in Hu by auto. left. exists u. auto.
  - right. rewrite lookup_app_r, list_lookup_fmap in Hu by lia. destruct (as_ !! (i - length tr)) as [a|] eqn:E; [|discriminate].
    cbn in Hu. injection Hu as _ ->. split; [lia|reflexivity].
Qed.
Lemma acc_left tr t as_ l i b : (forall c : bool, (if c then Wr (LSlot l) else Rd (LSlot l)) ∉ as_) -> accesses (tr ++ blk t as_) i (LSlot l) b -> accesses tr i (LSlot l) b.
Proof. intros Hn H. apply acc_split in H as [H|[_ H]]; [auto|]. exfalso. apply (Hn b). eapply elem_of_list_lookup_2; eauto. Qed.

Lemma no_drop w t st w' ls l (b : bool) : l ∉ ls -> (if b then Wr (LSlot l) else Rd (LSlot l)) ∉ flat_map (drop_slot w t st w') ls.
Proof.
  intros Hn H. rewrite elem_of_list_In, in_flat_map in H. destruct H as (l0 & Hl0 & H). apply elem_of_list_In in H, Hl0.
  unfold drop_slot in H. destruct (gives_up_slot w t st w' l0); [|inversion H].
  destruct (slot_alive w' l0); rewrite ?elem_of_app, ?elem_of_cons, ?elem_of_nil in H; destruct b; destruct_or?; simplify_eq; contradiction.
Qed.
Lemma drops_at w t st w' l : l < length (w_slots w) -> gives_up_slot w t st w' l = true -> slot_alive w' l = false ->
  exists a b, slot_drops w t st w' = a ++ Wr (LSlot l) :: b /\ forall c : bool, (if c then Wr (LSlot l) else Rd (LSlot l)) ∉ a /\ (if c then Wr (LSlot l) else Rd (LSlot l)) ∉ b.
Proof.
  intros Hl Hg Hd. unfold slot_drops. replace (length (w_slots w)) with (l + S (length (w_slots w) - S l)) by lia.
  rewrite seq_app, flat_map_app. cbn [seq flat_map]. rewrite Nat.add_0_l. unfold drop_slot at 2. rewrite Hg, Hd.
  exists (flat_map (drop_slot w t st w') (seq 0 l) ++ [Acq (YSlot l); Rel (YSlot l)]), (flat_map (drop_slot w t st w') (seq (S l) (length (w_slots w) - S l))).
  split; [rewrite <- !app_assoc; reflexivity|]. intros c. split.
  - rewrite elem_of_app. intros [H|H].
    + apply no_drop in H; [auto|]. rewrite elem_of_seq. lia.
    + rewrite !elem_of_cons, elem_of_nil in H. destruct c; destruct_or?; simplify_eq; contradiction.
  - apply no_drop. rewrite elem_of_seq. lia.
Qed.

Lemma dies w w' t st st' l : w_thr w !! t = Some st -> w_thr w' = <[t := st']> (w_thr w) -> slot_alive w l = true -> slot_alive w' l = false ->
  (forall v, in_vec w l v = true -> v < length (w_vecs w)) -> gives_up_slot w t st w' l = true.
Proof.
  intros Ht Ethr Ha Hd Hv. assert (Hno : forall h, ~ holds w' l h) by (intros h Hh; assert (slot_alive w' l = true) by (apply alive_holds; eauto); congruence).
  assert (Hiv : forall v, in_vec w l v = true -> gives_up_slot w t st w' l = true).
  { intros v H. unfold gives_up_slot. apply orb_true_iff. right. apply existsb_exists. exists v. split; [apply in_seq; specialize (Hv _ H); lia|].
    rewrite H. destruct (in_vec w' l v) eqn:E; [|reflexivity]. apply in_vec_alive in E. congruence. }
  apply alive_holds in Ha as [[u|s|u v] Hh].
  - destruct (decide (u = t)) as [->|Hn].
    + unfold gives_up_slot. apply orb_true_iff. left. apply Nat.ltb_lt. rewrite Ethr, list_lookup_insert by (eapply lookup_lt_Some; eauto). change (default [] (Some st')) with st'.
      apply pinning_iff in Hh as (x & Hx & Hp). rewrite Ht in Hx. injection Hx as <-.
      destruct (tmps l st') eqn:E; [lia|]. exfalso. apply (Hno (HPin t)), pinning_iff. exists st'. split; [|lia]. rewrite Ethr. apply list_lookup_insert. eapply lookup_lt_Some; eauto.
    + exfalso. apply (Hno (HPin u)). destruct Hh as (x & f & Hx & Hf). exists x, f. rewrite Ethr, list_lookup_insert_ne by auto. auto.
  - destruct Hh as (r & v & Ho & Hvv & Hl). apply (Hiv v). apply in_vec_iff. split; [left; eauto|auto].
  - destruct Hh as [He Hl]. apply (Hiv v). apply in_vec_iff. split; [right; eauto|auto].
Qed.

Lemma lived_once e ps w tr : lived e ps w tr ->
  (forall i l b, accesses tr i (LSlot l) b -> l < length (w_slots w)) /\ forall l, l < length (w_slots w) -> one_life (w_log w) tr l.
Proof.
  induction 1 as [|w tr t fail st w' Hl [IH0 IH] Ht Hs].
  { split; [intros i l b [u Hu]; discriminate|cbn; lia]. }
  pose proof (lived_reach _ _ _ _ Hl) as Hr. assert (Hr' : reachable e ps w') by (eapply reachable_step; eauto).
  unfold one_life in *. setoid_rewrite <- (proj1 (I_alive_inv _ _ _ Hr)) in IH. setoid_rewrite <- (proj1 (I_alive_inv _ _ _ Hr')).
  destruct (kinds _ _ _ _ _ _ _ Hr Ht Hs) as (st' & Ethr & Hk & Hlen).
  assert (Hback : forall l, l < length (w_slots w) -> slot_alive w' l = true -> slot_alive w l = true).
  { intros l Hlt Ha. apply alive_holds in Ha as [h Ha]. destruct (gain_step sw_life (fun s => SL_lib _ _ (SW_lock s)) e ps w w' t st st' Hr Ht Ethr Hk [] l h Hlt Ha) as [(h0 & H0 & _)|(_ & _ & H)]; [|auto].
    apply alive_holds. eauto. }
  assert (Huse : forall l, Rd (LSlot l) ∈ slot_uses w t st w' -> slot_alive w l = true).
  { intros l Hin. destruct (use_step sw_life _ _ _ _ _ _ _ Hr Ht Hin) as [Hu|(h & Hh & _)]; [eapply pin_step; eauto|apply alive_holds; eauto]. }
  assert (Hmake : forall l, Wr (LSlot l) ∈ slot_uses w t st w' -> l = length (w_slots w) /\ length (w_slots w) < length (w_slots w')) by (intros l H; apply make_step in H; tauto).
  assert (Hacts : forall l (c : bool), (if c then Wr (LSlot l) else Rd (LSlot l)) ∉ acts w t st w') by (intros l c; destruct (acts_slot w t st w' l); destruct c; auto).
  assert (Hdrop : forall l (c : bool), (if c then Wr (LSlot l) else Rd (LSlot l)) ∈ slot_drops w t st w' -> c = true /\ l < length (w_slots w) /\ slot_alive w l = true /\ slot_alive w' l = false).
  { intros l c H. apply drops_in in H as (l0 & H1 & H2 & H3). destruct c; destruct H3 as [?|[?|[? ?]]]; simplify_eq. repeat split; auto. eapply gives_up_alive; eauto. }
  assert (Hle : length (w_slots w) <= length (w_slots w')) by (destruct Hlen as [->|(_ & -> & _)]; lia).
  unfold all_acts. rewrite !blk_app. set (tr0 := tr ++ blk t (slot_uses w t st w')). set (tr1 := tr0 ++ blk t (acts w t st w')).
  assert (Hacc1 : forall i l b, accesses tr1 i (LSlot l) b -> accesses tr0 i (LSlot l) b) by (intros i l b; apply acc_left; auto).
  assert (Hnew : forall i l b, accesses (tr1 ++ blk t (slot_drops w t st w')) i (LSlot l) b ->
    accesses tr i (LSlot l) b \/ (length tr <= i /\ ((b = false /\ slot_alive w l = true) \/ (b = true /\ l = length (w_slots w) /\ length (w_slots w) < length (w_slots w')) \/ (b = true /\ l < length (w_slots w) /\ slot_alive w l = true /\ slot_alive w' l = false)))).
  { intros i l b H. apply acc_split in H as [H|[Hge H]].
    - apply Hacc1 in H. apply acc_split in H as [H|[Hge H]]; [auto|]. right. split; [auto|]. apply elem_of_list_lookup_2 in H. destruct b; [right; left; destruct (Hmake _ H); auto|left; auto].
    - right. split; [unfold tr1, tr0 in Hge; rewrite !app_length in Hge; lia|]. right. right. apply elem_of_list_lookup_2 in H. apply Hdrop in H. tauto. }
  assert (Hkeep : forall i l b, accesses tr i (LSlot l) b -> accesses (tr1 ++ blk t (slot_drops w t st w')) i (LSlot l) b) by (intros i l b H; do 3 apply acc_mono; auto).
  split.
  { intros i l b H. apply Hnew in H as [H|(_ & [(_ & H)|[(_ & -> & H)|(_ & H & _)]])]; [apply IH0 in H; lia| |lia|lia]. apply (alive_bound _ _ _ _ Hr) in H. lia. }
  intros l Hlt. destruct (decide (l < length (w_slots w))) as [Hold|Hold].
  - destruct (IH l Hold) as (m & Hm & Hfirst & Hrest). pose proof (acc_lt _ _ _ _ Hm) as Hml. exists m. split; [auto|]. split.
    { intros i b H. apply Hnew in H as [H|[H _]]; [eauto|lia]. }
    destruct (slot_alive w l) eqn:Ea.
    + destruct (slot_alive w' l) eqn:Ea'.
      * intros i H. apply Hnew in H as [H|(_ & [(? & _)|[(_ & -> & H)|(_ & _ & _ & H)]])]; [auto|discriminate|lia|congruence].
      * assert (Hg : gives_up_slot w t st w' l = true).
        { eapply dies; eauto. intros v Hv. apply in_vec_iff in Hv as [[(s & r & Ho & Hv)|[u He]] _]; [eapply vec_lt; eauto|eapply emitting_bound; eauto]. }
        destruct (drops_at _ _ _ _ _ Hold Hg Ea') as (a & b & Ed & Hab). exists (length tr1 + length a).
        assert (Hd : accesses (tr1 ++ blk t (slot_drops w t st w')) (length tr1 + length a) (LSlot l) true).
        { exists t. rewrite lookup_app_r, list_lookup_fmap by lia. replace (length tr1 + length a - length tr1) with (length a) by lia. rewrite Ed, list_lookup_middle by auto. reflexivity. }
        assert (Hm1 : length tr <= length tr1) by (unfold tr1, tr0; rewrite !app_length; lia).
        assert (Hpos : forall i c, accesses (tr1 ++ blk t (slot_drops w t st w')) i (LSlot l) c -> accesses tr1 i (LSlot l) c \/ i = length tr1 + length a).
        { intros i c H. apply acc_split in H as [H|[Hge H]]; [auto|]. right. rewrite Ed in H. destruct (Hab c) as [Ha Hb].
          destruct (Nat.lt_total (i - length tr1) (length a)) as [Hx|[Hx|Hx]]; [|lia|].
          - exfalso. apply Ha. rewrite lookup_app_l in H by auto. eapply elem_of_list_lookup_2; eauto.
          - exfalso. apply Hb. rewrite lookup_app_r in H by lia. destruct (i - length tr1 - length a) as [|n] eqn:En; [lia|]. cbn in H. eapply elem_of_list_lookup_2; eauto. }
        split; [lia|]. split; [exact Hd|]. split.
        -- intros i c H. apply Hpos in H as [H|H]; [apply acc_lt in H; lia|lia].
        -- intros i H. apply Hpos in H as [H|H]; [left|auto]. apply Hacc1 in H. apply acc_split in H as [H|[_ H]]; [auto|].
           exfalso. apply elem_of_list_lookup_2 in H. apply Hmake in H. lia.
    + assert (Ea' : slot_alive w' l = false) by (destruct (slot_alive w' l) eqn:E; [apply Hback in E; [congruence|auto]|reflexivity]). rewrite Ea'.
      destruct Hrest as (d & Hmd & Hd & Hlast & Hwr). exists d. split; [auto|]. split; [auto|].
      assert (Hno : forall i b, accesses (tr1 ++ blk t (slot_drops w t st w')) i (LSlot l) b -> accesses tr i (LSlot l) b).
      { intros i b H. apply Hnew in H as [H|(_ & [(_ & H)|[(_ & -> & H)|(_ & _ & H & _)]])]; [auto|congruence|lia|congruence]. }
      split; eauto.
  - destruct Hlen as [E|(Eu & E & (s & r & v & Ho & Hv & Hin))]; [lia|]. assert (l = length (w_slots w)) as -> by lia.
    assert (Ha : slot_alive w' (length (w_slots w)) = true) by (apply alive_holds; exists (HSig s), r, v; auto).
    assert (Hat : forall i b, accesses (tr1 ++ blk t (slot_drops w t st w')) i (LSlot (length (w_slots w))) b -> i = length tr).
    { intros i b H. apply acc_split in H as [H|[_ H]].
      - apply Hacc1 in H. apply acc_split in H as [H|[Hge H]]; [apply IH0 in H; lia|]. rewrite Eu in H.
        destruct (i - length tr) as [|[|n]] eqn:En; [lia| |]; destruct b; discriminate.
      - exfalso. apply elem_of_list_lookup_2 in H. apply Hdrop in H. lia. }
    exists (length tr). split.
    { do 2 apply acc_mono. exists t. unfold tr0. rewrite Eu, lookup_app_r, Nat.sub_diag by lia. reflexivity. }
    split; [intros i b H; apply Hat in H; lia|]. rewrite Ha. intros i H. eauto.
Qed.

Lemma connected_life e ps w tr t s l i : lived e ps w tr -> EConn t s l i ∈ w_log w -> one_life (w_log w) tr l.
Proof.
  intros Hl Hin. pose proof (lived_reach _ _ _ _ Hl) as Hr. apply (proj2 (lived_once _ _ _ _ Hl)).
  destruct (I_hb_inv _ _ _ Hr) as (_ & _ & HE). specialize (HE _ Hin). unfold InvFields.below in HE. rewrite Forall_forall in HE. apply HE. left.
Qed.
