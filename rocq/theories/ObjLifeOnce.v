(** * A tracked object is made once and destroyed once; what the steps do *)
From Verif Require Import InvDeath InvFields InvObj InvCall Hist Facts ObjProof.
From Verif Require Export ObjLifeProof.

Lemma oacc_left tr t as_ o i b : (forall c : bool, (if c then Wr (LObj o) else Rd (LObj o)) ∉ as_) -> accesses (tr ++ blk t as_) i (LObj o) b -> accesses tr i (LObj o) b.
Proof. intros Hn H. apply acc_split in H as [H|[_ H]]; [auto|]. exfalso. apply (Hn b). eapply elem_of_list_lookup_2; eauto. Qed.
Lemma no_odrop w t st w' os o (b : bool) : o ∉ os -> (if b then Wr (LObj o) else Rd (LObj o)) ∉ flat_map (drop_obj w t st w') os.
Proof.
  intros Hn H. rewrite elem_of_list_In, in_flat_map in H. destruct H as (l0 & Hl0 & H). apply elem_of_list_In in H, Hl0.
  unfold drop_obj in H. destruct (gives_up_obj w t st w' l0); [|inversion H].
  destruct (obj_alive w' l0); rewrite ?elem_of_app, ?elem_of_cons, ?elem_of_nil in H; destruct b; destruct_or?; simplify_eq; contradiction.
Qed.
Lemma odrops_at w t st w' o : o < length (v_objs (w_vars w)) -> gives_up_obj w t st w' o = true -> obj_alive w' o = false ->
  exists a b, obj_drops w t st w' = a ++ Wr (LObj o) :: b /\ forall c : bool, (if c then Wr (LObj o) else Rd (LObj o)) ∉ a /\ (if c then Wr (LObj o) else Rd (LObj o)) ∉ b.
Proof.
  intros Hl Hg Hd. unfold obj_drops. set (n := length (v_objs (w_vars w))) in *. replace n with (o + S (n - S o)) by lia.
  rewrite seq_app, flat_map_app. cbn [seq flat_map]. rewrite Nat.add_0_l. unfold drop_obj at 2. rewrite Hg, Hd.
  exists (flat_map (drop_obj w t st w') (seq 0 o) ++ [Acq (YObj o); Rel (YObj o)]), (flat_map (drop_obj w t st w') (seq (S o) (n - S o))).
  split; [rewrite <- !app_assoc; reflexivity|]. intros c. split.
  - rewrite elem_of_app. intros [H|H].
    + apply no_odrop in H; [auto|]. rewrite elem_of_seq. lia.
    + rewrite !elem_of_cons, elem_of_nil in H. destruct c; destruct_or?; simplify_eq; contradiction.
  - apply no_odrop. rewrite elem_of_seq. lia.
Qed.

Lemma tracked_once e ps w tr : tracked_run e ps w tr ->
  (forall i o b, accesses tr i (LObj o) b -> o < length (v_objs (w_vars w))) /\ forall o, o < length (v_objs (w_vars w)) -> one_object_life (w_log w) tr o.
Proof.
  induction 1 as [|w tr t fail st w' Hl [IH0 IH] Ht Hs].
  { split; [intros i o b [u Hu]; discriminate|cbn; lia]. }
  pose proof (tracked_reach _ _ _ _ Hl) as Hr. assert (Hr' : reachable e ps w') by (eapply reachable_step; eauto).
  unfold one_object_life in *. setoid_rewrite <- (proj1 (I_obj_inv _ _ _ Hr)) in IH. setoid_rewrite <- (proj1 (I_obj_inv _ _ _ Hr')).
  pose proof (proj2 (I_obj_inv _ _ _ Hr)) as Hbound.
  destruct (owners _ _ _ _ _ _ _ Hr Ht Hs) as (st' & new & Ethr & Elog & Hv & Hgain & _).
  assert (Hback : forall o, o < length (v_objs (w_vars w)) -> obj_alive w' o = true -> obj_alive w o = true).
  { intros o Ho Ha. apply alive_obj in Ha as [Ha|(u & x & Hx & Hp)].
    - apply alive_obj. left. revert Ha. unfold client_holds. destruct Hv as [E|k r _ E|o' k r _ Ho' E]; rewrite E; [auto| |].
      + rewrite lookup_app_l by auto. auto.
      + destruct (decide (o' = o)) as [->|Hn]; [rewrite list_lookup_insert by auto; discriminate|rewrite list_lookup_insert_ne by auto; auto].
    - rewrite Ethr in Hx. destruct (decide (u = t)) as [->|Hn].
      + rewrite list_lookup_insert in Hx by (eapply lookup_lt_Some; eauto). injection Hx as <-.
        apply Hgain in Hp as [Hp|(r & a & pin & eid & n & k & i & _ & _ & _ & _ & Hal)]; [|auto]. apply alive_obj. right. exists t, st. auto.
      + rewrite list_lookup_insert_ne in Hx by auto. apply alive_obj. right. exists u, x. auto. }
  assert (Huse : forall o (c : bool), (if c then Wr (LObj o) else Rd (LObj o)) ∈ obj_uses w st w' ->
     (c = false /\ obj_alive w o = true) \/ (c = true /\ o = length (v_objs (w_vars w)) /\ length (v_objs (w_vars w)) < length (v_objs (w_vars w')))).
  { intros o c H. apply uses_in in H as [(o' & E & Hp)|[(o' & E)|(k & r & _ & Hlt & [E|E])]]; destruct c; simplify_eq; [left|right; auto].
    split; [auto|]. apply alive_obj. right. exists t, st. auto. }
  assert (Hall : forall o (c : bool), (if c then Wr (LObj o) else Rd (LObj o)) ∉ all_acts w t st w') by (intros o c; destruct (all_acts_obj w t st w' o); destruct c; auto).
  assert (Hdrop : forall o (c : bool), (if c then Wr (LObj o) else Rd (LObj o)) ∈ obj_drops w t st w' -> c = true /\ o < length (v_objs (w_vars w)) /\ obj_alive w o = true /\ obj_alive w' o = false).
  { intros o c H. apply odrops_in in H as (l0 & H1 & H2 & H3). destruct c; destruct H3 as [?|[?|[? ?]]]; simplify_eq. repeat split; auto. eapply given_up_alive; eauto. }
  assert (Hle : length (v_objs (w_vars w)) <= length (v_objs (w_vars w'))).
  { destruct Hv as [E|k r _ E|o' k r _ Ho' E]; rewrite E; rewrite ?app_length, ?insert_length; lia. }
  unfold full_acts. rewrite !blk_app. set (tr0 := tr ++ blk t (obj_uses w st w')). set (tr1 := tr0 ++ blk t (all_acts w t st w')).
  assert (Hacc1 : forall i o b, accesses tr1 i (LObj o) b -> accesses tr0 i (LObj o) b) by (intros i o b; apply oacc_left; auto).
  assert (Hnew : forall i o b, accesses (tr1 ++ blk t (obj_drops w t st w')) i (LObj o) b ->
    accesses tr i (LObj o) b \/ (length tr <= i /\ ((b = false /\ obj_alive w o = true) \/ (b = true /\ o = length (v_objs (w_vars w)) /\ length (v_objs (w_vars w)) < length (v_objs (w_vars w'))) \/ (b = true /\ o < length (v_objs (w_vars w)) /\ obj_alive w o = true /\ obj_alive w' o = false)))).
  { intros i o b H. apply acc_split in H as [H|[Hge H]].
    - apply Hacc1 in H. apply acc_split in H as [H|[Hge H]]; [auto|]. right. split; [auto|]. apply elem_of_list_lookup_2 in H. apply Huse in H. tauto.
    - right. split; [unfold tr1, tr0 in Hge; rewrite !app_length in Hge; lia|]. right. right. apply elem_of_list_lookup_2 in H. apply Hdrop in H. tauto. }
  assert (Hkeep : forall i o b, accesses tr i (LObj o) b -> accesses (tr1 ++ blk t (obj_drops w t st w')) i (LObj o) b) by (intros i o b H; do 3 apply acc_mono; auto).
  split.
  { intros i o b H. apply Hnew in H as [H|(_ & [(_ & H)|[(_ & -> & H)|(_ & H & _)]])]; [apply IH0 in H; lia| |lia|lia]. apply Hbound in H. lia. }
  intros o Hlt. destruct (decide (o < length (v_objs (w_vars w)))) as [Hold|Hold].
  - destruct (IH o Hold) as (m & Hm & Hfirst & Hrest). pose proof (acc_lt _ _ _ _ Hm) as Hml. exists m. split; [auto|]. split.
    { intros i b H. apply Hnew in H as [H|[H _]]; [eauto|lia]. }
    destruct (obj_alive w o) eqn:Ea.
    + destruct (obj_alive w' o) eqn:Ea'.
      * intros i H. apply Hnew in H as [H|(_ & [(? & _)|[(_ & -> & H)|(_ & _ & _ & H)]])]; [auto|discriminate|lia|congruence].
      * assert (Hg : gives_up_obj w t st w' o = true) by (eapply dying; eauto).
        destruct (odrops_at _ _ _ _ _ Hold Hg Ea') as (a & b & Ed & Hab). exists (length tr1 + length a).
        assert (Hd : accesses (tr1 ++ blk t (obj_drops w t st w')) (length tr1 + length a) (LObj o) true).
        { exists t. rewrite lookup_app_r, list_lookup_fmap by lia. replace (length tr1 + length a - length tr1) with (length a) by lia. rewrite Ed, list_lookup_middle by auto. reflexivity. }
        assert (Hm1 : length tr <= length tr1) by (unfold tr1, tr0; rewrite !app_length; lia).
        assert (Hpos : forall i c, accesses (tr1 ++ blk t (obj_drops w t st w')) i (LObj o) c -> accesses tr1 i (LObj o) c \/ i = length tr1 + length a).
        { intros i c H. apply acc_split in H as [H|[Hge H]]; [auto|]. right. rewrite Ed in H. destruct (Hab c) as [Ha Hb].
          destruct (Nat.lt_total (i - length tr1) (length a)) as [Hx|[Hx|Hx]]; [|lia|].
          - exfalso. apply Ha. rewrite lookup_app_l in H by auto. eapply elem_of_list_lookup_2; eauto.
          - exfalso. apply Hb. rewrite lookup_app_r in H by lia. destruct (i - length tr1 - length a) as [|n] eqn:En; [lia|]. cbn in H. eapply elem_of_list_lookup_2; eauto. }
        split; [lia|]. split; [exact Hd|]. split.
        -- intros i c H. apply Hpos in H as [H|H]; [apply acc_lt in H; lia|lia].
        -- intros i H. apply Hpos in H as [H|H]; [left|auto]. apply Hacc1 in H. apply acc_split in H as [H|[_ H]]; [auto|].
           exfalso. apply elem_of_list_lookup_2 in H. apply (Huse o true) in H as [[? _]|(_ & -> & _)]; [discriminate|lia].
    + assert (Ea' : obj_alive w' o = false) by (destruct (obj_alive w' o) eqn:E; [apply Hback in E; [congruence|auto]|reflexivity]). rewrite Ea'.
      destruct Hrest as (d & Hmd & Hd & Hlast & Hwr). exists d. split; [auto|]. split; [auto|].
      assert (Hno : forall i b, accesses (tr1 ++ blk t (obj_drops w t st w')) i (LObj o) b -> accesses tr i (LObj o) b).
      { intros i b H. apply Hnew in H as [H|(_ & [(_ & H)|[(_ & -> & H)|(_ & _ & H & _)]])]; [auto|congruence|lia|congruence]. }
      split; eauto.
  - destruct Hv as [E|k r Est E|o' k r _ Ho' E]; [congruence| |rewrite E, insert_length in Hlt; lia].
    pose proof E as E'. apply (f_equal length) in E. rewrite app_length in E. cbn in E. assert (o = length (v_objs (w_vars w))) as -> by lia.
    assert (Ha : obj_alive w' (length (v_objs (w_vars w))) = true) by (apply alive_obj; left; unfold client_holds; rewrite E', lookup_app_r, Nat.sub_diag by lia; reflexivity).
    assert (Eu : obj_uses w st w' = Wr (LObj (length (v_objs (w_vars w)))) :: Rel (YGive (length (v_objs (w_vars w)))) :: flat_map frame_uses st).
    { rewrite Est. unfold obj_uses, client_uses. cbv zeta. assert (Hb : (length (v_objs (w_vars w)) <? length (v_objs (w_vars w'))) = true) by (apply Nat.ltb_lt; lia). rewrite Hb. reflexivity. }
    assert (Hfr : forall c : bool, (if c then Wr (LObj (length (v_objs (w_vars w)))) else Rd (LObj (length (v_objs (w_vars w))))) ∉ flat_map frame_uses st).
    { intros c H. rewrite elem_of_list_In, in_flat_map in H. destruct H as (f & Hf & H). apply elem_of_list_In in H, Hf.
      assert (Hp : frame_pins_obj (length (v_objs (w_vars w))) f = true).
      { destruct f; cbn in H; try (inversion H; fail). destruct g; try (inversion H; fail); destruct pin; try (inversion H; fail); apply elem_of_list_singleton in H; destruct c; try discriminate; injection H as <-; cbn; apply bool_decide_eq_true; reflexivity. }
      assert (Hx : obj_alive w (length (v_objs (w_vars w))) = true) by (apply alive_obj; right; exists t, st; split; [auto|]; apply pins_iff; eauto). apply Hbound in Hx. lia. }
    assert (Hat : forall i b, accesses (tr1 ++ blk t (obj_drops w t st w')) i (LObj (length (v_objs (w_vars w)))) b -> i = length tr).
    { intros i b H. apply acc_split in H as [H|[_ H]].
      - apply Hacc1 in H. apply acc_split in H as [H|[Hge H]]; [apply IH0 in H; lia|]. rewrite Eu in H.
        destruct (i - length tr) as [|[|n]] eqn:En; [lia|destruct b; discriminate|]. exfalso. apply (Hfr b). cbn in H. eapply elem_of_list_lookup_2; eauto.
      - exfalso. apply elem_of_list_lookup_2 in H. apply Hdrop in H. lia. }
    exists (length tr). split.
    { do 2 apply acc_mono. exists t. unfold tr0. rewrite Eu, lookup_app_r, Nat.sub_diag by lia. reflexivity. }
    split; [intros i b H; apply Hat in H; lia|]. rewrite Ha. intros i H. eauto.
Qed.
Lemma object_life e ps w tr o : tracked_run e ps w tr -> ENewObj o ∈ w_log w -> one_object_life (w_log w) tr o.
Proof. intros Hl Hin. apply (proj2 (tracked_once _ _ _ _ Hl)). eapply new_objs_bound; eauto using tracked_reach. Qed.
