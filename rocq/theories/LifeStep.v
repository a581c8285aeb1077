(** * Every step keeps the uses of slot objects ordered *)
From Verif Require Import InvDeath InvFields.
From Verif Require Export LifeProof.

Section step.
Context (sw : act -> act -> Prop) (uses : Prop).
Context (Hlock : forall s, sw (Rel (YLock s)) (Acq (YLock s))).
Context (Hcount : forall v, sw (Rel (YCount v)) (Acq (YCount v))).
Context (Huse : uses -> forall v, sw (Rel (YCount v)) (Use v)).
Context (Hslot : forall l, sw (Rel (YSlot l)) (Acq (YSlot l))).
Context (Hhand : forall l, sw (Rel (YHand l)) (Acq (YHand l))).
Notation Inv := (RaceProof.Inv sw uses).
Notation known := (RaceProof.known sw).
Notation publ := (RaceProof.publ sw).
Notation sealed := (RaceProof.sealed sw).
Notation acc := accesses.
Notation hb := (hb sw).
Notation knows := (knows sw).
Notation U := (U sw).

(** Who uses a slot holds it, or got it from a handle in this step. *)
Lemma use_step e ps w t st w' l : reachable e ps w -> w_thr w !! t = Some st -> Rd (LSlot l) ∈ slot_uses w t st w' ->
  slot_uses w t st w' = [Acq (YHand l); Pin l; Rd (LSlot l)] \/
  exists h, holds w l h /\ forall tr i, knows w tr h i <-> known tr t i.
Proof.
  intros Hr Ht Hin. pose proof (I_adj_inv _ _ _ Hr _ _ Ht) as [HA _]. pose proof (I_deref_inv _ _ _ Hr _ _ Ht) as HD.
  assert (Hcrit : forall f s v l, f ∈ st -> crit_vec f = Some (s, v) -> l ∈ vec_of w v ->
    exists h, holds w l h /\ forall tr i, knows w tr h i <-> known tr t i).
  { intros f s v l0 Hf Hc Hl. pose proof (I_crit_inv _ _ _ Hr _ _ Ht) as HF. rewrite Forall_forall in HF. specialize (HF _ Hf).
    unfold fr_crit in HF. rewrite Hc in HF. destruct HF as [(r & Hs & Ha & Hv) _].
    destruct (proj2 (lock_iff _ _ _ _ _ s Hr Ht)) as (r' & Hs' & Hlk); [exists f; split; [auto|]; destruct f; cbn in *; simplify_eq; auto|].
    simplify_eq. exists (HSig s). split; [exists r, v; repeat split; auto|]. intros tr i. cbn. unfold RaceProof.sealed. split.
    - intros (r' & [Hr' _] & Hi). simplify_eq. rewrite Hlk in Hi. exact Hi.
    - intros Hi. exists r. rewrite Hlk. repeat split; auto. }
  assert (Hpin : forall f, f ∈ st -> frame_pins l f = true -> exists h, holds w l h /\ forall tr i, knows w tr h i <-> known tr t i).
  { intros f Hf Hp. exists (HPin t). split; [exists st, f; auto|]. reflexivity. }
  assert (Hcall : forall a l0 g args pin eid start b, st = a ++ FSlot (RSlot l0) g args pin eid start :: b ->
    exists h, holds w l0 h /\ forall tr i, knows w tr h i <-> known tr t i).
  { intros a l0 g args pin eid start b ->. apply AT_app in HA as [HA _]. cbn in HA. destruct eid; [|contradiction]. destruct b as [|[] b]; try contradiction.
    destruct b as [|[] b]; try contradiction. destruct HA as [-> ->]. apply AT_app in HD as [_ [HD _]]. cbn in HD.
    exists (HEmit t v). split; [|reflexivity]. split; [|eapply elem_of_list_lookup_2; eauto].
    eexists _, _. split; [exact Ht|]. split; [apply elem_of_app; right; do 2 apply elem_of_list_further; apply elem_of_list_here|]. cbn. apply bool_decide_true. auto. }
  assert (Hlast : forall f s v, f ∈ st -> crit_vec f = Some (s, v) -> Rd (LSlot l) ∈ last_slot w v -> exists h, holds w l h /\ forall tr i, knows w tr h i <-> known tr t i).
  { intros f s v Hf Hc H. unfold last_slot in H. destruct (last (vec_of w v)) eqn:E; [|inversion H]. apply elem_of_list_singleton in H. injection H as <-.
    apply last_Some_elem_of in E. eauto. }
  assert (Hnth : forall f s v i, f ∈ st -> crit_vec f = Some (s, v) -> Rd (LSlot l) ∈ nth_slot w v i -> exists h, holds w l h /\ forall tr i, knows w tr h i <-> known tr t i).
  { intros f s v i Hf Hc H. unfold nth_slot in H. destruct (vec_of w v !! i) eqn:E; [|inversion H]. apply elem_of_list_singleton in H. injection H as <-.
    apply elem_of_list_lookup_2 in E. eauto. }
  destruct st as [|f st]; [inversion Hin|]. destruct f; try (inversion Hin; fail).
  - (* FRet *) destruct st as [|f st]; [inversion Hin|]. destruct f; try (inversion Hin; fail); cbn [slot_uses] in Hin.
    + destruct o; try (inversion Hin; fail). apply elem_of_list_singleton in Hin. discriminate.
    + right. apply elem_of_app in Hin as [Hin|Hin].
      * eapply Hnth; [right; left|reflexivity|exact Hin].
      * destruct o; try (inversion Hin; fail). match type of Hin with context [if ?b then _ else _] => destruct b; [|inversion Hin] end. eapply Hlast; [right; left|reflexivity|exact Hin].
    + right. destruct r as [l0|u]; [|inversion Hin]. apply elem_of_list_singleton in Hin. injection Hin as ->. eapply (Hcall [FRet o]); reflexivity.
  - (* FProg *) destruct p as [|o k]; [inversion Hin|]. destruct o; try (inversion Hin; fail). cbn [slot_uses] in *.
    destruct (locked w t v) as [l0|] eqn:E; [|inversion Hin]. left.
    rewrite !elem_of_cons in Hin. destruct Hin as [H|[H|[H|H]]]; try discriminate; [|inversion H]. injection H as ->. reflexivity.
  - (* FDisc *) cbn [slot_uses] in Hin. apply elem_of_list_singleton in Hin. injection Hin as ->. right. eapply Hpin; [left|]. cbn. apply bool_decide_true. auto.
  - (* FBody *) right. cbn [slot_uses] in Hin. destruct k; try (inversion Hin; fail).
    + destruct (_ <? _); rewrite ?elem_of_cons, ?elem_of_nil in Hin; destruct_or?; try discriminate; contradiction.
    + apply elem_of_cons in Hin as [Hin|Hin].
      * injection Hin as ->. cbn in HA. destruct HA as [HA _]. destruct st as [|[] st]; try contradiction. subst. eapply Hpin; [right; left|]. cbn. apply bool_decide_true. auto.
      * destruct (w_slots w !! l0) as [r|]; [|inversion Hin]. destruct (vec_of w v !! _); [|inversion Hin]. eapply Hlast; [left|reflexivity|exact Hin].
  - (* FErase *) right. cbn [slot_uses] in Hin. eapply Hnth; [left|reflexivity|exact Hin].
  - (* FSlot *) right. cbn [slot_uses] in Hin. destruct r as [l0|u]; [|inversion Hin]. apply elem_of_list_singleton in Hin. injection Hin as ->. eapply (Hcall []); reflexivity.
Qed.
Lemma make_step w t st w' l : Wr (LSlot l) ∈ slot_uses w t st w' ->
  slot_uses w t st w' = [Wr (LSlot (length (w_slots w))); Rel (YHand (length (w_slots w)))] /\ l = length (w_slots w) /\ length (w_slots w) < length (w_slots w').
Proof.
  unfold slot_uses, last_slot, nth_slot. intros Hin. repeat case_match; rewrite ?elem_of_app, ?elem_of_cons, ?elem_of_nil in Hin; destruct_or?; simplify_eq; try contradiction.
  match goal with H : (_ <? _) = true |- _ => apply Nat.ltb_lt in H end. auto.
Qed.
Lemma uses_no_count w t st w' v a : a ∈ slot_uses w t st w' -> a <> Rel (YCount v).
Proof.
  unfold slot_uses, last_slot, nth_slot. intros Hin ->. repeat case_match; rewrite ?elem_of_app, ?elem_of_cons, ?elem_of_nil in Hin; destruct_or?; simplify_eq; contradiction.
Qed.
Lemma uses_may w t st w' a w1 w2 : a ∈ slot_uses w t st w' -> may w1 w2 t st a.
Proof.
  unfold slot_uses, last_slot, nth_slot. intros Hin. repeat case_match; rewrite ?elem_of_app, ?elem_of_cons, ?elem_of_nil in Hin; destruct_or?; simplify_eq; try contradiction; exact I.
Qed.

Lemma pins_dec (as_ : list act) : (exists l, as_ = [Acq (YHand l); Pin l; Rd (LSlot l)]) \/ ~ (exists l, as_ = [Acq (YHand l); Pin l; Rd (LSlot l)]).
Proof.
  destruct as_ as [|a [|b [|c [|d as_]]]]; try (right; intros [? ?]; discriminate).
  destruct a as [[| | | | | |l| |]| | | | |]; try (right; intros [? ?]; discriminate).
  destruct b as [| | |l'| |]; try (right; intros [? ?]; discriminate).
  destruct c as [| | | |[| | |l''|]|]; try (right; intros [? ?]; discriminate).
  destruct (decide (l = l' /\ l = l'')) as [[<- <-]|Hn]; [left; eauto|right; intros [l0 E]; simplify_eq; auto].
Qed.

(** ** What is given up *)
Lemma drops_in w t st w' a : a ∈ slot_drops w t st w' -> exists l, l < length (w_slots w) /\ gives_up_slot w t st w' l = true /\
  (a = Acq (YSlot l) \/ a = Rel (YSlot l) \/ (a = Wr (LSlot l) /\ slot_alive w' l = false)).
Proof.
  unfold slot_drops. rewrite elem_of_list_In, in_flat_map. intros (l & Hl & Ha). apply in_seq in Hl. apply elem_of_list_In in Ha. exists l. split; [lia|].
  unfold drop_slot in Ha. destruct (gives_up_slot w t st w' l); [|inversion Ha]. split; [auto|].
  destruct (slot_alive w' l) eqn:E; rewrite ?elem_of_app, ?elem_of_cons, ?elem_of_nil in Ha; destruct_or?; try contradiction; auto.
Qed.
Lemma drops_publ w t st w' l tr i : l < length (w_slots w) -> gives_up_slot w t st w' l = true -> known tr t i ->
  publ (tr ++ blk t (slot_drops w t st w')) (YSlot l) i.
Proof.
  intros Hl Hg Hk. unfold slot_drops. replace (length (w_slots w)) with (l + S (length (w_slots w) - S l)) by lia.
  rewrite seq_app, flat_map_app. cbn [seq flat_map]. rewrite blk_app, Nat.add_0_l, blk_app. apply publ_mono.
  unfold drop_slot at 2. rewrite Hg.
  change ([Acq (YSlot l); Rel (YSlot l)]) with ([Acq (YSlot l)] ++ [Rel (YSlot l)]). rewrite !blk_app. apply publ_mono, known_publ, known_mono, known_mono. auto.
Qed.

(** ** Order *)
Definition ordered (P : lid -> Prop) (tr : list (tid * act)) : Prop :=
  forall i j l a b, i < j -> acc tr i (LSlot l) a -> acc tr j (LSlot l) b -> a = true \/ b = true -> a = true \/ P l -> hb tr i j.
Lemma ordered_snoc P tr t a : ordered P tr ->
  (forall l (b : bool), a = (if b then Wr (LSlot l) else Rd (LSlot l)) -> forall i a', acc tr i (LSlot l) a' -> a' = true \/ b = true -> a' = true \/ P l -> known tr t i) ->
  ordered P (tr ++ [(t, a)]).
Proof.
  intros Hg Ha i j l x y Hlt [u Hi] [u' Hj] Hc Hc'.
  assert (Hjl : j < length (tr ++ [(t, a)])) by (eapply lookup_lt_Some; eauto). rewrite app_length in Hjl. cbn in Hjl.
  destruct (decide (j < length tr)) as [Hj'|Hj'].
  - rewrite lookup_app_l in Hi, Hj by lia. apply hb_mono. eapply Hg; [exact Hlt| | |exact Hc|exact Hc']; eexists; eauto.
  - assert (j = length tr) as -> by lia. rewrite lookup_app_l in Hi by lia.
    rewrite lookup_app_r, Nat.sub_diag in Hj by lia. cbn in Hj. injection Hj as <- Hj. apply known_hb.
    eapply Ha; [exact Hj|eexists; exact Hi|exact Hc|exact Hc'].
Qed.
Lemma ordered_blk P tr t as_ : ordered P tr ->
  (forall l (b : bool), (if b then Wr (LSlot l) else Rd (LSlot l)) ∈ as_ -> forall i a', acc tr i (LSlot l) a' -> a' = true \/ b = true -> a' = true \/ P l -> known tr t i) ->
  ordered P (tr ++ blk t as_).
Proof.
  revert tr. induction as_ as [|a as_ IH]; intros tr Hg Ha; [rewrite app_nil_r; exact Hg|].
  rewrite blk_cons. apply IH.
  - apply ordered_snoc; [exact Hg|]. intros l b ->. apply Ha. apply elem_of_list_here.
  - intros l b Hin i a' Hi Hc Hc'. change [(t, a)] with (blk t [a]) in *. apply (acc_app sw) in Hi as [Hi|[_ Hk]]; [|exact Hk].
    apply known_mono. eapply Ha; [apply elem_of_list_further; exact Hin|exact Hi|exact Hc|exact Hc'].
Qed.

(** ** The invariant *)
Definition fine (w : world) (l : lid) : Prop := uses \/ ~ taken_out (w_log w) l.
Record Life (w : world) (tr : list (tid * act)) : Prop := {
  L_ok : forall i l b, acc tr i (LSlot l) b -> l < length (w_slots w);
  L_hand : forall i l, acc tr i (LSlot l) true -> slot_alive w l = true -> publ tr (YHand l) i;
  L_made : forall i l h, acc tr i (LSlot l) true -> holds w l h -> knows w tr h i;
  L_use : forall i l b, acc tr i (LSlot l) b -> slot_alive w l = true -> fine w l -> U w tr l i;
  L_ord : ordered (fine w) tr }.

Lemma U_mono w tr x l i : U w tr l i -> U w (tr ++ x) l i.
Proof.
  intros [H|[(h & H1 & H2)|(v & H1 & H2)]]; [left; apply publ_mono; auto|right; left; exists h; split; [auto|apply knows_mono; auto]|right; right; exists v; split; [auto|apply publ_mono; auto]].
Qed.

(** A slot whose weak_ptr was locked is alive, and held in a temporary. *)
Lemma pin_step e w t fail st w' l : w_thr w !! t = Some st -> step e w t fail = SOk w' ->
  slot_uses w t st w' = [Acq (YHand l); Pin l; Rd (LSlot l)] -> slot_alive w l = true /\ pinning w' t l.
Proof.
  intros Ht Hstep Hu.
  destruct (step_inv _ _ _ _ _ _ Hstep Ht) as (w1 & st1 & D & L & Htr & _ & HD & _ & _ & _ & _ & _ & _ & Ethr).
  assert (Hp : forall f, f ∈ st1 -> frame_pins l f = true -> pinning w' t l).
  { intros f Hin Hf. exists (D ++ st1), f. split; [rewrite Ethr; apply list_lookup_insert; eapply lookup_lt_Some; eauto|].
    split; [apply elem_of_app; right; exact Hin|exact Hf]. }
  assert (Hu' : Acq (YHand l) ∈ slot_uses w t st w') by (rewrite Hu; left).
  destruct Htr; try (exfalso; cbn in Hu'; unfold last_slot, nth_slot in Hu'; repeat case_match; rewrite ?elem_of_app, ?elem_of_cons, ?elem_of_nil in Hu'; destruct_or?; simplify_eq; contradiction).
  all: cbn [slot_uses] in Hu; unfold locked in Hu; rewrite ?H, ?H0 in Hu; try discriminate.
  - injection Hu as ->. split; [eapply blk_alive; eauto|]. eapply (Hp (FTmp l)); [right; left|cbn; apply bool_decide_true; auto].
  - injection Hu as ->. split; [eapply tmp_alive; eauto|]. eapply (Hp (FTmp l)); [right; left|cbn; apply bool_decide_true; auto].
  - injection Hu as ->. split; [auto|]. eapply (Hp (FDisc l)); [left|cbn; apply bool_decide_true; auto].
  - exfalso. destruct H; discriminate.
Qed.

(** Who holds the slot made in this step. *)
Lemma new_holder e ps w w' t st st' h tr i : reachable e ps w -> w_thr w !! t = Some st -> w_thr w' = <[t := st']> (w_thr w) -> kind w t st w' st' ->
  holds w' (length (w_slots w)) h -> known tr t i -> knows w' tr h i.
Proof.
  intros Hr Ht Ethr Hk Hh Hi.
  assert (Hb : forall v, length (w_slots w) ∉ vec_of w v).
  { intros v Hin. pose proof (vec_of_below _ _ _ v Hr) as HB. unfold InvFields.below in HB. rewrite Forall_forall in HB. specialize (HB _ Hin). lia. }
  destruct h as [u|s|u v]; cbn in Hh |- *.
  - destruct (decide (u = t)) as [->|Hn]; [exact Hi|]. exfalso. destruct Hh as (x & f & Hx & Hf & Hp).
    rewrite (thr_u w w' t st' Ethr) in Hx by auto. destruct (I_hb_inv _ _ _ Hr) as (_ & HA & _). specialize (HA _ _ Hx). rewrite Forall_forall in HA. specialize (HA _ Hf).
    assert (length (w_slots w) ∈ fr_slots f) by (destruct f; cbn in Hp |- *; try discriminate; apply bool_decide_eq_true in Hp; subst; left).
    unfold InvFields.below in HA. rewrite Forall_forall in HA. specialize (HA _ H). lia.
  - destruct Hh as (r & v & Ho & Hv & Hl). exists r. split; [auto|].
    destruct Hk; try (exfalso; eapply (Hb v); unfold vec_of in *; congruence);
      match goal with H : w_vecs w' = _ |- _ => unfold vec_of at 1 in Hl; rewrite H in Hl end.
    + exfalso. destruct (decide (v < length (w_vecs w))) as [Hlt|Hge]; [rewrite (vec_of_app w) in Hl by auto; eapply Hb; eauto|].
      rewrite lookup_app_r in Hl by lia. destruct (v - length (w_vecs w)) as [|n]; cbn in Hl; [inversion Hl|]. inversion Hl.
    + exfalso. destruct (decide (v < length (w_vecs w))) as [Hlt|Hge]; [rewrite (vec_of_app w) in Hl by auto; eapply Hb; eauto|].
      rewrite lookup_app_r in Hl by lia. destruct (v - length (w_vecs w)) as [|n]; cbn in Hl; [eapply Hb; eauto|]. inversion Hl.
    + destruct (decide (v = v0)) as [->|Hn].
      * assert (Ho' : on w s r) by (destruct Ho as [Ho1 Ho2]; split; [congruence|auto]).
        destruct (one_sig _ _ _ Hr s r s0 r0 v0) as [-> ->]; auto. unfold RaceProof.sealed. match goal with H : sg_lock _ = Some t |- _ => rewrite H end. exact Hi.
      * exfalso. rewrite list_lookup_insert_ne in Hl by auto. eapply (Hb v). exact Hl.
    + exfalso. destruct (decide (v = v0)) as [->|Hn].
      * rewrite list_lookup_insert in Hl by (eapply (vec_lt e ps w Hr); eauto). cbn in Hl.
        assert (Hnd : NoDup (vec_of w v0)) by (destruct (I_list_inv _ _ _ Hr) as (Hn & _); unfold vec_of; destruct (w_vecs w !! v0) as [xs|] eqn:E; [apply (Hn _ _ E)|constructor]).
        match goal with H : vec_of w v0 !! _ = Some _ |- _ => apply (swap_pop_elem _ _ _ _ Hnd H) in Hl end. destruct Hl as [Hl _]. eapply Hb; exact Hl.
      * rewrite list_lookup_insert_ne in Hl by auto. eapply (Hb v). exact Hl.
  - destruct (decide (u = t)) as [->|Hn]; [exact Hi|]. exfalso. destruct Hh as [He Hl].
    assert (He' : emitting w u v) by (destruct He as (x & f & Hx & Hf); rewrite (thr_u w w' t st' Ethr) in Hx by auto; exists x, f; auto).
    rewrite (vec_keeps e ps w w' t st st' Hr Ht Hk _ _ He') in Hl. eapply Hb; eauto.
Qed.

Lemma life_init ps : Life (init ps) [].
Proof.
  assert (Hno : forall i l b, ~ accesses [] i l b) by (intros i l b (t & Hi); discriminate).
  split; intros; try (exfalso; eapply Hno; eauto; fail).
  intros i j l a b _ Hi. exfalso. eapply Hno; eauto.
Qed.

Lemma life_step e ps w tr t fail st w' : reachable e ps w -> Inv w tr -> Life w tr -> w_thr w !! t = Some st -> step e w t fail = SOk w' ->
  Inv w' (tr ++ blk t (all_acts w t st w')) /\ Life w' (tr ++ blk t (all_acts w t st w')).
Proof.
  intros Hr HI HL Ht Hs. assert (Hr' : reachable e ps w') by (eapply reachable_step; eauto).
  destruct (kinds _ _ _ _ _ _ _ Hr Ht Hs) as (st' & Ethr & Hk & Hlen).
  assert (Ht' : w_thr w' !! t = Some st') by (eapply thr_t; eauto).
  unfold all_acts. rewrite !blk_app.
  set (tr0 := tr ++ blk t (slot_uses w t st w')). set (tr1 := tr0 ++ blk t (acts w t st w')). set (tr2 := tr1 ++ blk t (slot_drops w t st w')).
  assert (HI0 : Inv w tr0) by (eapply inv_ext; eauto; [intros; eapply uses_no_count; eauto|intros; eapply uses_may; eauto]).
  assert (HI1 : Inv w' tr1) by (eapply step_keeps; eauto).
  split.
  { eapply inv_ext; eauto.
    - intros v a Ha ->. apply drops_in in Ha as (l & _ & _ & [?|[?|[? _]]]); discriminate.
    - intros a Ha. apply drops_in in Ha as (l & _ & _ & [->|[->|[-> _]]]); exact I. }

  assert (Hsl : length (w_slots w) <= length (w_slots w')).
  { destruct (step_inv _ _ _ _ _ _ Hs Ht) as (w1 & st1 & D & L & Htr & _ & _ & _ & _ & _ & Esl & _). rewrite Esl. eapply InvList.trans_slots_len; eauto. }
  assert (Hfine : forall l, fine w' l -> fine w l).
  { intros l [H|H]; [left; auto|right]. intros Ho. apply H.
    destruct (step_inv _ _ _ _ _ _ Hs Ht) as (w1 & st1 & D & L & Htr & _ & _ & _ & _ & _ & _ & _ & Elog & _).
    destruct (trans_log_app _ _ _ _ _ _ Htr) as [new Enew]. rewrite Elog, Enew. unfold taken_out in *. setoid_rewrite elem_of_app. setoid_rewrite elem_of_app. destruct Ho as [(a & b & c & Ho)|(a & b & Ho)]; [left; exists a, b, c|right; exists a, b]; auto. }
  assert (Hback : forall l, l < length (w_slots w) -> slot_alive w' l = true -> slot_alive w l = true).
  { intros l Hl Ha. apply alive_holds in Ha as [h Ha]. destruct (gain_step sw Hlock e ps w w' t st st' Hr Ht Ethr Hk tr0 l h Hl Ha) as [(h0 & H0 & _)|(_ & _ & H)]; [|auto].
    apply alive_holds. eauto. }
  assert (Hold : forall l i, fine w' l -> U w tr0 l i -> U w' tr1 l i \/ (gives_up_slot w t st w' l = true /\ known tr1 t i)).
  { intros l i Hf [H|[(h & H1 & H2)|(v & H1 & H2)]].
    - left. left. apply publ_mono. auto.
    - eapply hold_step; eauto.
    - eapply vec_step; eauto. }
  assert (Hdead : forall l i, slot_alive w' l = false -> U w' tr1 l i -> publ tr1 (YSlot l) i).
  { intros l i Hd [H|[(h & H1 & H2)|(v & H1 & H2)]]; [auto| |].
    - exfalso. assert (slot_alive w' l = true) by (apply alive_holds; eauto). congruence.
    - exfalso. apply in_vec_alive in H1. congruence. }
  assert (Hpinned : forall l, slot_uses w t st w' = [Acq (YHand l); Pin l; Rd (LSlot l)] -> slot_alive w l = true /\ pinning w' t l) by (intros l; eapply pin_step; eauto).
  (* accesses after the step *)
  assert (Hacc1 : forall i l b, acc tr1 i (LSlot l) b -> acc tr i (LSlot l) b \/ ((if b then Wr (LSlot l) else Rd (LSlot l)) ∈ slot_uses w t st w' /\ known tr0 t i)).
  { intros i l b H. apply (acc_app sw) in H as [H|[H _]].
    - apply (acc_app sw) in H. exact H.
    - exfalso. destruct (acts_slot w t st w' l). destruct b; auto. }
  assert (Hacc : forall i l b, acc tr2 i (LSlot l) b -> acc tr1 i (LSlot l) b \/ (b = true /\ l < length (w_slots w) /\ slot_alive w' l = false)).
  { intros i l b H. apply (acc_app sw) in H as [H|[H _]]; [auto|]. right. apply drops_in in H as (l0 & H1 & H2 & H3).
    destruct b; destruct H3 as [?|[?|[? ?]]]; simplify_eq; auto. }
  split.
  - (* L_ok *) intros i l b H. apply Hacc in H as [H|(_ & H & _)]; [|lia]. apply Hacc1 in H as [H|[H _]]; [apply (L_ok _ _ HL) in H; lia|].
    destruct b; [apply make_step in H as (_ & -> & H); auto|].
    assert (Ha : slot_alive w l = true).
    { destruct (use_step _ _ _ _ _ _ _ Hr Ht H) as [Hu|(h & Hh & _)]; [apply Hpinned in Hu as [? _]; auto|apply alive_holds; eauto]. }
    apply (alive_bound _ _ _ _ Hr) in Ha. lia.
  - (* L_hand *) intros i l H Ha. apply Hacc in H as [H|(_ & _ & H)]; [|congruence]. do 2 apply publ_mono.
    destruct (Hacc1 _ _ _ H) as [H'|[H' _]].
    + apply publ_mono. apply (L_hand _ _ HL); auto. apply Hback; auto. eapply (L_ok _ _ HL); eauto.
    + cbn in H'. apply make_step in H' as (Eu & -> & _). clear Hacc1 Hacc. subst tr2 tr1. apply (acc_app sw) in H as [H|[H _]]; [|exfalso; destruct (acts_slot w t st w' (length (w_slots w))); auto].
      subst tr0. rewrite Eu in H |- *. rewrite blk_cons in H |- *.
      apply (acc_app sw) in H as [H|[H _]]; [|apply elem_of_list_singleton in H; discriminate]. change [(t, Wr (LSlot (length (w_slots w))))] with (blk t [Wr (LSlot (length (w_slots w)))]) in *.
      apply known_publ. apply (acc_app sw) in H as [H|[_ H]]; [|auto]. apply (L_ok _ _ HL) in H. lia.
  - (* L_made *) intros i l h H Hh. assert (Ha : slot_alive w' l = true) by (apply alive_holds; eauto).
    apply Hacc in H as [H|(_ & _ & H)]; [|congruence]. apply knows_mono.
    apply Hacc1 in H as [H|[H Hkn]].
    + assert (Hl : l < length (w_slots w)) by (eapply (L_ok _ _ HL); eauto).
      destruct (gain_step sw Hlock e ps w w' t st st' Hr Ht Ethr Hk tr0 l h Hl Hh) as [(h0 & H0 & Hg)|(-> & Hu & Hal)].
      * apply Hg. apply knows_mono. apply (L_made _ _ HL _ _ _ H H0).
      * cbn. apply known_mono. eapply publ_known_blk; [rewrite Hu; left|apply (L_hand _ _ HL); eauto|apply Hhand].
    + cbn in H. apply make_step in H as (_ & -> & _). apply (new_holder e ps w w' t st st'); auto. apply known_mono. auto.
  - (* L_use *) intros i l b H Ha Hf. apply Hacc in H as [H|(_ & _ & H)]; [|congruence].
    assert (Hfin : l < length (w_slots w) -> U w' tr1 l i \/ (gives_up_slot w t st w' l = true /\ known tr1 t i) -> U w' tr2 l i).
    { intros Hl [HU|[Hg Hkn]]; [apply U_mono; auto|left; apply drops_publ; auto]. }
    apply Hacc1 in H as [H|[H Hkn]].
    + assert (Hl : l < length (w_slots w)) by (eapply (L_ok _ _ HL); eauto).
      apply Hfin; [auto|]. apply Hold; [auto|]. apply U_mono. eapply (L_use _ _ HL); eauto.
    + destruct b.
      * apply make_step in H as (_ & -> & _). apply alive_holds in Ha as [h Hh]. right. left. exists h. split; [auto|]. apply knows_mono.
        apply (new_holder e ps w w' t st st'); auto. apply known_mono. auto.
      * destruct (use_step _ _ _ _ _ _ _ Hr Ht H) as [Hu|(h & Hh & Heq)].
        -- apply Hpinned in Hu as [_ Hp]. right. left. exists (HPin t). split; [exact Hp|]. cbn. do 2 apply known_mono. auto.
        -- apply Hfin; [apply (alive_bound _ _ _ _ Hr), alive_holds; eauto|]. eapply hold_step; eauto. apply Heq. auto.
  - (* L_ord *)
    assert (Hmade : forall l i, acc tr i (LSlot l) true -> slot_alive w l = true -> exists h, holds w l h /\ knows w tr h i).
    { intros l i Hi Ha. apply alive_holds in Ha as [h Hh]. exists h. split; [auto|]. eapply (L_made _ _ HL); eauto. }
    assert (O : ordered (fine w') tr).
    { intros i j l a b Hlt Hi Hj Hc Hc'. eapply (L_ord _ _ HL); eauto. destruct Hc'; auto. }
    assert (O0 : ordered (fine w') tr0).
    { destruct (pins_dec (slot_uses w t st w')) as [[l Hu]|Hn].
      - subst tr0. rewrite Hu. change [Acq (YHand l); Pin l; Rd (LSlot l)] with ([Acq (YHand l); Pin l] ++ [Rd (LSlot l)]). rewrite blk_app. apply ordered_blk.
        + apply ordered_blk; [exact O|]. intros l0 b Hin. exfalso. rewrite !elem_of_cons, elem_of_nil in Hin. destruct b; destruct_or?; simplify_eq; contradiction.
        + intros l0 b Hin i a' Hi Hc Hc'. apply elem_of_list_singleton in Hin. destruct b; [discriminate|]. injection Hin as ->. destruct Hc as [->|?]; [|discriminate].
          apply (acc_app sw) in Hi as [Hi|[_ Hkn]]; [|auto]. eapply publ_known_blk; [left|apply (L_hand _ _ HL); eauto|apply Hhand]. apply Hpinned in Hu. apply Hu.
      - apply ordered_blk; [exact O|]. intros l b Hin i a' Hi Hc Hc'. destruct b.
        + exfalso. apply make_step in Hin as (_ & -> & _). apply (L_ok _ _ HL) in Hi. lia.
        + destruct Hc as [->|?]; [|discriminate]. destruct (use_step _ _ _ _ _ _ _ Hr Ht Hin) as [Hu|(h & Hh & Heq)]; [exfalso; eauto|].
          apply Heq. eapply (L_made _ _ HL); eauto. }
    assert (O1 : ordered (fine w') tr1).
    { apply ordered_blk; [exact O0|]. intros l b Hin. exfalso. destruct (acts_slot w t st w' l). destruct b; auto. }
    subst tr2. unfold slot_drops.
    assert (Hkn : forall l i a, l < length (w_slots w) -> gives_up_slot w t st w' l = true -> slot_alive w' l = false -> acc tr1 i (LSlot l) a -> a = true \/ fine w' l -> publ tr1 (YSlot l) i \/ known tr1 t i).
    { intros l i a Hl Hg Hd Hi Hc. apply Hacc1 in Hi as [Hi|[_ Hi]]; [|right; apply known_mono; auto].
      assert (Hal : slot_alive w l = true) by (eapply gives_up_alive; eauto).
      assert (Hx : U w' tr1 l i \/ (gives_up_slot w t st w' l = true /\ known tr1 t i)).
      { destruct a.
        - destruct (Hmade _ _ Hi Hal) as (h & Hh & Hkn). eapply hold_step; eauto. apply knows_mono. auto.
        - destruct Hc as [?|Hf]; [discriminate|]. apply Hold; [auto|]. apply U_mono. eapply (L_use _ _ HL); eauto. }
      destruct Hx as [HU|[_ Hkn]]; [left; apply Hdead; auto|auto]. }
    clearbody tr1. clear - O1 Hkn Hslot.
    assert (Hseq : forall l, l ∈ seq 0 (length (w_slots w)) -> l < length (w_slots w)) by (intros l Hl; apply elem_of_seq in Hl; lia).
    revert Hseq. generalize (seq 0 (length (w_slots w))). intros ls Hls.
    induction ls as [|l ls IH] using rev_ind; [rewrite app_nil_r; exact O1|].
    rewrite flat_map_app, blk_app. cbn [flat_map]. rewrite app_nil_r.
    specialize (IH (fun l0 H0 => Hls l0 (proj2 (elem_of_app _ _ _) (or_introl H0)))).
    set (trx := tr1 ++ blk t (flat_map (drop_slot w t st w') ls)) in *.
    unfold drop_slot. destruct (gives_up_slot w t st w' l) eqn:Eg; [|rewrite app_nil_r; exact IH].
    rewrite blk_app.
    assert (IH1 : ordered (fine w') (trx ++ blk t [Acq (YSlot l); Rel (YSlot l)])).
    { apply ordered_blk; [exact IH|]. intros l0 b Hin. exfalso. rewrite !elem_of_cons, elem_of_nil in Hin. destruct b; destruct_or?; simplify_eq; contradiction. }
    destruct (slot_alive w' l) eqn:Ed; [rewrite app_nil_r; exact IH1|].
    apply ordered_blk; [exact IH1|]. intros l0 b Hin i a Hi _ Hc. apply elem_of_list_singleton in Hin. destruct b; [|discriminate]. injection Hin as ->.
    apply (acc_app sw) in Hi as [Hi|[_ Hi]]; [|auto]. apply (acc_app sw) in Hi as [Hi|[_ Hi]]; [|apply known_mono; auto].
    destruct (Hkn l i a) as [Hp|Hp]; auto.
    + apply Hls, elem_of_app. right. left.
    + eapply publ_known_blk; [left|apply publ_mono; eauto|apply Hslot].
    + do 2 apply known_mono. auto.
Qed.

Lemma lived_reach e ps w tr : lived e ps w tr -> reachable e ps w.
Proof. induction 1; [exists []; reflexivity|eapply reachable_step; eauto]. Qed.
Lemma lived_inv e ps w tr : lived e ps w tr -> Inv w tr /\ Life w tr.
Proof.
  induction 1 as [|w tr t fail st w' Hl [IH1 IH2] Ht Hs]; [split; [apply inv_init|apply life_init]|].
  eapply life_step; eauto using lived_reach.
Qed.
End step.
