(** * Destroying a vector of slots *)
From Verif Require Export RaceStep.

Section drop.
Context (sw : act -> act -> Prop) (uses : Prop).
Context (Hlock : forall s, sw (Rel (YLock s)) (Acq (YLock s))).
Context (Hcount : forall v, sw (Rel (YCount v)) (Acq (YCount v))).
Context (Huse : uses -> forall v, sw (Rel (YCount v)) (Use v)).
Notation Inv := (Inv sw uses).
Notation known := (known sw).

(** The write that ends a vector is the last of [drop_vec]. *)
Lemma in_drop (pre : list act) w x n v :
  (forall k, pre !! k <> Some (Rel (YCount v))) ->
  (pre ++ drop_vec w x) !! S n = Some (Wr (LVec v)) -> (pre ++ drop_vec w x) !! n = Some (Rel (YCount v)) ->
  x = v /\ use_count w v <= 1 /\ n = S (length pre) /\ take (S n) (pre ++ drop_vec w x) = pre ++ [Acq (YCount v); Rel (YCount v)].
Proof.
  intros Hp H1 H0. assert (Hge : length pre <= n).
  { destruct (decide (length pre <= n)) as [|Hlt]; [auto|]. rewrite lookup_app_l in H0 by lia. destruct (Hp _ H0). }
  rewrite lookup_app_r in H0, H1 by lia. replace (S n - length pre) with (S (n - length pre)) in H1 by lia.
  assert (n = S (length pre) \/ n - length pre <> 1) as [->|Hn] by lia.
  - replace (S (length pre) - length pre) with 1 in * by lia. unfold drop_vec in *. cbn in H0. injection H0 as ->.
    cbn in H1. destruct (Nat.leb_spec (use_count w v) 1) as [Hc|Hc]; [|discriminate]. split; [auto|]. split; [auto|]. split; [auto|].
    replace (S (S (length pre))) with (length pre + 2) by lia. rewrite take_add_app by reflexivity. reflexivity.
  - exfalso. unfold drop_vec in H0. destruct (n - length pre) as [|[|[|m]]]; try discriminate; [lia|..].
    + destruct (Nat.leb (use_count w x) 1); discriminate.
    + destruct (Nat.leb (use_count w x) 1); discriminate.
Qed.

(** Who gives up a share of a vector. *)
Inductive gives_up (w : world) (w' : world) (v : vid) : list frame -> list act -> Prop :=
| G_detach s k r st : w_sigs w !! s = Some r -> sg_vec r = Some v -> length (w_vecs w) < length (w_vecs w') ->
    gives_up w w' v (FWrite s k :: st) (([Rd (LPtr s); Use v] ++ [Rd (LVec v); Wr (LVec (length (w_vecs w))); Wr (LPtr s)]) ++ drop_vec w v)
| G_emit o s eid args st : gives_up w w' v (FRet o :: FEmit s eid v args :: st) ([] ++ drop_vec w v)
| G_destroy s k r st : w_sigs w !! s = Some r -> sg_vec r = Some v ->
    gives_up w w' v (FProg (Do (ODestroySignal s) k) :: st) ([Acq (YLock s); Wr (LPtr s)] ++ drop_vec w v).

Lemma rel_count w t st w' v : Rel (YCount v) ∈ acts w t st w' -> gives_up w w' v st (acts w t st w').
Proof.
  assert (Hd : forall x, Rel (YCount v) ∈ drop_vec w x -> x = v).
  { intros x. unfold drop_vec. destruct (_ <=? _); cbn; rewrite ?elem_of_cons, ?elem_of_nil; intros; destruct_or?; simplify_eq; auto; contradiction. }
  assert (Hm : forall x, Rel (YCount v) ∈ moved_slot w x -> False).
  { intros x H. apply moved_in in H as (l & E & _). discriminate. }
  intros H. destruct st as [|f st]; [inversion H|].
  destruct f as [o|p| | | | | | | |l| | |s k|s k|s v1 k|s o|s v1 tgt i n xs0| | |r g args pin eid start|];
    try (cbn [acts] in H; rewrite ?elem_of_cons, ?elem_of_nil in H; destruct_or?; simplify_eq; contradiction).
  - destruct st as [|f st]; [inversion H|]. destruct f as [| | | | | | | | | | | | | | | | |s v1 tgt i n xs0|s eid v1 args| |]; try (inversion H; fail); cbn [acts] in *.
    + destruct o as [|[]| | | | | | |]; try (inversion H; fail). apply elem_of_app in H as [H|H]; [destruct (Hm _ H)|].
      apply elem_of_list_singleton in H. discriminate.
    + rewrite (Hd _ H). apply (G_emit w w' v o s eid args st).
  - destruct p as [o|o k]; [inversion H|].
    assert (Hf : forall as_ : list act, (forall x, Rel (YCount x) ∉ as_) -> Rel (YCount v) ∈ as_ -> False) by (intros as_ Ha; apply Ha).
    destruct o as [vo|c|s| | | | |s args| | | | |pos]; try (cbn [acts] in H; inversion H; fail); cbn [acts] in *.
    + exfalso. unfold vop_acts in H. repeat case_match; rewrite ?elem_of_cons, ?elem_of_nil in H; destruct_or?; simplify_eq; contradiction.
    + exfalso. case_match; rewrite ?elem_of_cons, ?elem_of_nil in H; destruct_or?; simplify_eq; contradiction.
    + destruct (w_sigs w !! s) as [r|] eqn:Hs; [|inversion H]. destruct (sg_vec r) as [v1|] eqn:Hv.
      * assert (E : Rel (YCount v) ∈ drop_vec w v1).
        { apply elem_of_app in H as [H|H]; [|exact H]. rewrite ?elem_of_cons, ?elem_of_nil in H; destruct_or?; simplify_eq; contradiction. }
        rewrite (Hd _ E) in *. eapply G_destroy; eauto.
      * rewrite ?elem_of_app, ?elem_of_cons, ?elem_of_nil in H; destruct_or?; simplify_eq; contradiction.
    + exfalso. rewrite ?elem_of_cons, ?elem_of_nil in H; destruct_or?; simplify_eq; contradiction.
    + exfalso. repeat case_match; rewrite ?elem_of_cons, ?elem_of_nil in H; destruct_or?; simplify_eq; contradiction.
  - cbn [acts] in *. unfold write_acts in *.
    destruct k; try (exfalso; rewrite ?elem_of_cons, ?elem_of_nil in H; destruct_or?; simplify_eq; contradiction).
    all: destruct (w_sigs w !! s) as [r|] eqn:Hs; [|inversion H]; destruct (sg_vec r) as [v1|] eqn:Hv; [|inversion H].
    all: try (exfalso; rewrite ?elem_of_cons, ?elem_of_nil in H; destruct_or?; simplify_eq; contradiction).
    all: destruct (Nat.ltb_spec (length (w_vecs w)) (length (w_vecs w'))) as [Hl|Hl];
      [|exfalso; destruct (1 <? use_count w v1); rewrite ?elem_of_app, ?elem_of_cons, ?elem_of_nil in H; destruct_or?; simplify_eq; contradiction].
    all: assert (E : Rel (YCount v) ∈ drop_vec w v1) by
      (rewrite ?elem_of_app, ?elem_of_cons, ?elem_of_nil in H; destruct_or?; simplify_eq; try contradiction; auto);
      apply Hd in E; subst v1; rewrite app_assoc; eapply G_detach; eauto.
  - cbn [acts] in *. unfold body_acts in *. exfalso.
    destruct k; repeat case_match; rewrite ?elem_of_app, ?elem_of_cons, ?elem_of_nil in H; destruct_or?; simplify_eq; try contradiction; eauto.
  - cbn [acts] in *. unfold slot_acts in *. exfalso. repeat case_match; rewrite ?elem_of_cons, ?elem_of_nil in H; destruct_or?; simplify_eq; contradiction.
Qed.

Lemma drop_known e ps w tr t fail st w' n v i b : reachable e ps w -> Inv w tr -> w_thr w !! t = Some st ->
  step e w t fail = SOk w' -> acts w t st w' !! S n = Some (Wr (LVec v)) -> acts w t st w' !! n = Some (Rel (YCount v)) ->
  accesses tr i (LVec v) b -> known (tr ++ blk t (take (S n) (acts w t st w'))) t i.
Proof.
  intros Hr HI Ht Hs H1 H0 Hi. pose proof (rel_count w t st w' v (elem_of_list_lookup_2 _ _ _ H0)) as Hg.
  destruct (step_inv _ _ _ _ _ _ Hs Ht) as (w1 & st1 & D & L & Htr & _ & HD & _ & Esg & Evc & Esl & _ & _ & Ethr).
  remember (acts w t st w') as as_ eqn:Eas. destruct Hg as [s k r st Hsg Hv Hlen|o s eid args st|s k r st Hsg Hv].
  - apply in_drop in H1 as (_ & Hc & -> & Et); [|intros [|[|[|[|[|]]]]]; discriminate|exact H0].
    exfalso. unfold step in Hs. rewrite Ht in Hs. cbn [lstep] in Hs.
    assert (Hcb : Nat.ltb 1 (use_count w v) = false) by (apply Nat.ltb_ge; exact Hc).
    unfold step_write in Hs. rewrite Hsg, Hv, Hcb in Hs.
    destruct k; injection Hs as <-; cbn in Hlen; lia.
  - apply in_drop in H1 as (_ & Hc & -> & Et); [|intros []; discriminate|exact H0]. rewrite Et.
    eapply last_owner_emit; eauto; [|cbn; left].
    eexists _, _. split; [exact Ht|]. split; [right; left|cbn; apply bool_decide_true; auto].
  - apply in_drop in H1 as (_ & Hc & -> & Et); [|intros [|[|]]; discriminate|exact H0]. rewrite Et.
    assert (Hal : sg_alive r = true /\ sg_lock r = None).
    { clear -Htr Hsg. unfold get_sig in *. inversion Htr; subst; try contradiction.
      - match goal with H : get_sig _ _ = Some _ |- _ => unfold get_sig in H; rewrite Hsg in H; destruct (sg_alive r) eqn:?; simplify_eq; auto end.
      - match goal with H : begins _ _ _ _ _ |- _ => inversion H end. }
    destruct Hal as [Ha Hl]. set (tr1 := tr ++ blk t [Acq (YLock s); Wr (LPtr s)]).
    assert (Hk : forall i, sealed sw tr s r i -> known tr1 t i).
    { intros j Hj. unfold sealed in Hj. rewrite Hl in Hj. eapply publ_known_blk; [left|exact Hj|auto]. }
    rewrite blk_app. change (tr ++ blk t [Acq (YLock s); Wr (LPtr s)]) with tr1.
    destruct b.
    + apply known_mono, Hk. eapply V_vec; eauto. split; auto.
    + destruct (V_rd _ _ _ _ HI _ _ Hi) as [(s1 & r1 & Ho1 & Hv1 & Hg1)|[(u & He & _)|Hp]].
      * pose proof (I_bound_inv _ _ _ Hr) as (_ & _ & Hb3 & _). destruct Ho1 as [Hs1 _].
        assert (s1 = s) as -> by eauto. simplify_eq. apply known_mono, Hk. auto.
      * exfalso. destruct He as (x & f & Hx & Hf & Hfo).
        pose proof (use_count_no_emits w s v ltac:(eexists; eauto) Hc) as Hz.
        assert (Hz' : swt (emits v) x = 0) by (eapply wt_zero; eauto).
        assert (emits v f = 0) by (eapply swt_zero; eauto). unfold emits in *. rewrite Hfo in *. discriminate.
      * eapply publ_known_blk; [left|apply publ_mono; exact Hp|auto].
Qed.

Lemma first_write e w t fail st w' v : w_thr w !! t = Some st -> step e w t fail = SOk w' ->
  acts w t st w' !! 0 = Some (Wr (LVec v)) -> length (w_vecs w) <= v.
Proof.
  intros Ht Hs H. destruct (step_inv _ _ _ _ _ _ Hs Ht) as (w1 & st1 & D & L & Htr & _).
  assert (Hm : forall x as_, vec_of w x <> [] -> (moved_slot w x ++ as_) !! 0 <> Some (Wr (LVec v))).
  { intros x as_ Hx. unfold moved_slot. destruct (last (vec_of w x)) eqn:E; [discriminate|]. apply last_None in E. contradiction. }
  inversion Htr; subst; cbn [acts] in H; try discriminate.
  all: try (unfold write_acts, body_acts, vop_acts, slot_acts in H; repeat case_match; try discriminate; simplify_eq; lia).
  - destruct o; try contradiction; try discriminate. case_match; [|discriminate]. cbn in H. simplify_eq. lia.
  - case_match; [|discriminate]. cbn in H. simplify_eq. lia.
  - match goal with H : begins _ _ _ _ _ |- _ => inversion H; subst end; discriminate.
  - exfalso. eapply Hm; [|exact H]. intros E. match goal with H : vec_of _ _ !! _ = Some _ |- _ => rewrite E in H; discriminate end.
Qed.

(** Whoever touched a vector did so before the vector is destroyed. *)
Lemma drop_ordered e ps w tr i j u v b : traced e ps w tr -> i < S j -> accesses tr i (LVec v) b ->
  tr !! j = Some (u, Rel (YCount v)) -> tr !! S j = Some (u, Wr (LVec v)) -> hb sw tr i (S j).
Proof.
  intros Htr. revert i j u b. induction Htr as [|w tr t f st w' Htr IH Ht Hs]; intros i j u b Hlt Hi Hj Hj1; [discriminate|].
  destruct (traced_inv sw uses Hlock Hcount Huse _ _ _ _ Htr) as [Hr HI]. set (as_ := acts w t st w') in *.
  destruct (decide (S j < length tr)) as [Hs1|Hs1].
  - rewrite lookup_app_l in Hj, Hj1 by lia. apply hb_mono. apply (IH i j u b); auto.
    destruct Hi as [x Hx]. rewrite lookup_app_l in Hx by lia. exists x. exact Hx.
  - rewrite lookup_app_r, list_lookup_fmap in Hj1 by lia. destruct (as_ !! (S j - length tr)) as [a|] eqn:Ha; [|discriminate].
    cbn in Hj1. injection Hj1 as <- ->.
    assert (Hkn : known (tr ++ blk t (take (S j - length tr) as_)) t i).
    { destruct Hi as [x Hx]. destruct (decide (i < length tr)) as [Hil|Hil].
      - rewrite lookup_app_l in Hx by lia. assert (Hacc : accesses tr i (LVec v) b) by (exists x; auto).
        destruct (decide (j < length tr)) as [Hjl|Hjl].
        + (* the first action of a step writes to a new vector *)
          exfalso. assert (E : S j - length tr = 0) by lia. rewrite E in Ha.
          assert (Hge : length (w_vecs w) <= v) by (eapply first_write; eauto). apply (V_ok _ _ _ _ HI) in Hacc. cbn in Hacc. lia.
        + rewrite lookup_app_r, list_lookup_fmap in Hj by lia. destruct (as_ !! (j - length tr)) as [a|] eqn:Ha0; [|discriminate].
          cbn in Hj. injection Hj as ->. replace (S j - length tr) with (S (j - length tr)) in * by lia.
          eapply drop_known; eauto.
      - rewrite lookup_app_r, list_lookup_fmap in Hx by lia. destruct (as_ !! (i - length tr)) as [a|] eqn:Hx0; [|discriminate]. cbn in Hx. injection Hx as <- ->.
        exists i, (if b then Wr (LVec v) else Rd (LVec v)). split; [|auto].
        rewrite lookup_app_r, list_lookup_fmap, lookup_take, Hx0 by lia. reflexivity. }
    apply (known_hb sw _ _ _ (Wr (LVec v))) in Hkn. rewrite app_length, fmap_length, take_length_le in Hkn by (apply lookup_lt_Some in Ha; lia).
    replace (length tr + (S j - length tr)) with (S j) in Hkn by lia.
    rewrite <- (take_drop_middle _ _ _ Ha). rewrite blk_app. rewrite blk_cons. apply hb_mono. exact Hkn.
Qed.
End drop.
