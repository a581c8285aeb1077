(** * Who knows what about a slot object *)
From Verif Require Export LifeKinds.
From Verif Require Import InvDeath InvFields.

Inductive holder := HPin (u : tid) | HSig (s : sid) | HEmit (u : tid) (v : vid).
Definition pinning (w : world) (u : tid) (l : lid) : Prop :=
  exists st f, w_thr w !! u = Some st /\ f ∈ st /\ frame_pins l f = true.
Definition holds (w : world) (l : lid) (h : holder) : Prop :=
  match h with
  | HPin u => pinning w u l
  | HSig s => exists r v, on w s r /\ sg_vec r = Some v /\ l ∈ vec_of w v
  | HEmit u v => emitting w u v /\ l ∈ vec_of w v
  end.

Lemma pinning_iff w u l : pinning w u l <-> exists st, w_thr w !! u = Some st /\ 0 < tmps l st.
Proof. split; [intros (st & f & Hu & Hf & Hp)|intros (st & Hu & Hp)]; [exists st; split; [auto|]; apply tmps_pos; eauto|].
  apply tmps_pos in Hp as (f & Hf & Hp). exists st, f. auto. Qed.
Lemma emitting_iff w u v : emitting w u v <-> exists st, w_thr w !! u = Some st /\ owns v st = true.
Proof. split; [intros (st & f & Hu & Hf & Hp)|intros (st & Hu & Hp)]; [exists st; split; [auto|]; apply ex_existsb; eauto|].
  apply ex_existsb in Hp as (f & Hf & Hp). exists st, f. auto. Qed.

Lemma alive_holds w l : slot_alive w l = true <-> exists h, holds w l h.
Proof.
  rewrite slot_alive_iff. split.
  - intros [(s & r & v & Hs & Ha & Hv & Hl)|(t & st & f & Ht & Hf & Hk)].
    + exists (HSig s). exists r, v. repeat split; auto.
    + destruct f; cbn in Hk; try discriminate.
      1-3: exists (HPin t); eexists st, _; split; [exact Ht|]; split; [exact Hf|exact Hk].
      exists (HEmit t v). apply bool_decide_eq_true in Hk. split; [|exact Hk]. eexists st, _. split; [exact Ht|]. split; [exact Hf|]. cbn. apply bool_decide_true. reflexivity.
  - intros [[u|s|u v] H].
    + destruct H as (st & f & Hu & Hf & Hp). right. exists u, st, f. split; [auto|]. split; [auto|]. destruct f; try discriminate; exact Hp.
    + destruct H as (r & v & [Hs Ha] & Hv & Hl). left. exists s, r, v. auto.
    + destruct H as [(st & f & Hu & Hf & Ho) Hl]. right. exists u, st, f. split; [auto|]. split; [auto|].
      destruct f; try discriminate. cbn in *. apply bool_decide_eq_true in Ho as ->. apply bool_decide_true. exact Hl.
Qed.
Lemma owned_iff w v : owned w v = true <-> (exists s r, on w s r /\ sg_vec r = Some v) \/ (exists u, emitting w u v).
Proof.
  unfold owned. rewrite orb_true_iff, <- !ex_existsb. f_equiv.
  - split.
    + intros (r & Hr & Ho). apply elem_of_list_lookup in Hr as [s Hs]. unfold sig_owns in Ho. apply andb_true_iff in Ho as [Ha Hv].
      apply bool_decide_eq_true in Hv. exists s, r. repeat split; auto.
    + intros (s & r & [Hs Ha] & Hv). exists r. split; [eapply elem_of_list_lookup_2; eauto|]. unfold sig_owns. rewrite Ha, Hv, bool_decide_true by auto. reflexivity.
  - split.
    + intros (st & Hst & Ho). apply elem_of_list_lookup in Hst as [u Hu]. exists u. apply emitting_iff. eauto.
    + intros [u Hu]. apply emitting_iff in Hu as (st & Hu & Ho). exists st. split; [eapply elem_of_list_lookup_2; eauto|exact Ho].
Qed.
Lemma in_vec_iff w l v : in_vec w l v = true <-> ((exists s r, on w s r /\ sg_vec r = Some v) \/ (exists u, emitting w u v)) /\ l ∈ vec_of w v.
Proof. unfold in_vec. rewrite andb_true_iff, owned_iff, bool_decide_eq_true. reflexivity. Qed.
Lemma in_vec_alive w l v : in_vec w l v = true -> slot_alive w l = true.
Proof.
  rewrite in_vec_iff, alive_holds. intros [[(s & r & Ho & Hv)|[u Hu]] Hl]; [exists (HSig s); exists r, v; auto|exists (HEmit u v); split; auto].
Qed.

Section proof.
Context (sw : act -> act -> Prop) (uses : Prop).
Context (Hlock : forall s, sw (Rel (YLock s)) (Acq (YLock s))).
Context (Hcount : forall v, sw (Rel (YCount v)) (Acq (YCount v))).
Context (Huse : uses -> forall v, sw (Rel (YCount v)) (Use v)).
Context (Hslot : forall l, sw (Rel (YSlot l)) (Acq (YSlot l))).
Context (Hhand : forall l, sw (Rel (YHand l)) (Acq (YHand l))).
Notation Inv := (RaceProof.Inv sw uses).
Notation known := (RaceProof.known sw).
Notation publ := (RaceProof.publ sw).
Notation sealed := (RaceProof.sealed sw).
Notation acc := accesses.
Notation hb := (hb sw).

Definition knows (w : world) (tr : list (tid * act)) (h : holder) (i : nat) : Prop :=
  match h with
  | HPin u | HEmit u _ => known tr u i
  | HSig s => exists r, on w s r /\ sealed tr s r i
  end.
Lemma knows_mono w tr x h i : knows w tr h i -> knows w (tr ++ x) h i.
Proof. destruct h; cbn; auto using known_mono. intros (r & Ho & Hs). eauto using sealed_mono. Qed.

Section one.
Context (e : env) (ps : list prog) (w w' : world) (t : tid) (st st' : list frame).
Context (Hr : reachable e ps w) (Ht : w_thr w !! t = Some st) (Ethr : w_thr w' = <[t := st']> (w_thr w)).
Context (Hk : kind w t st w' st').
Notation ac := (acts w t st w').

Lemma t_lt : t < length (w_thr w).
Proof. eapply lookup_lt_Some; eauto. Qed.
Lemma thr_t : w_thr w' !! t = Some st'.
Proof. rewrite Ethr. apply list_lookup_insert, t_lt. Qed.
Lemma thr_u u : u <> t -> w_thr w' !! u = w_thr w !! u.
Proof. intros Hn. rewrite Ethr. apply list_lookup_insert_ne. auto. Qed.

Lemma vec_lt s r v : on w s r -> sg_vec r = Some v -> v < length (w_vecs w).
Proof. intros [Hs _] Hv. pose proof (I_bound_inv _ _ _ Hr) as (Hb1 & _). eauto. Qed.
Lemma one_sig s r s0 r0 v : on w s r -> on w s0 r0 -> sg_vec r = Some v -> sg_vec r0 = Some v -> s = s0 /\ r = r0.
Proof.
  intros [Hs _] [Hs0 _] Hv Hv0. pose proof (I_bound_inv _ _ _ Hr) as (_ & _ & Hb3 & _). assert (s0 = s) as -> by eauto. split; congruence.
Qed.

Lemma vec_of_app xs v : v < length (w_vecs w) -> default [] ((w_vecs w ++ xs) !! v) = vec_of w v.
Proof. intros H. unfold vec_of. rewrite lookup_app_l by auto. reflexivity. Qed.

Lemma vec_keeps u v : emitting w u v -> vec_of w' v = vec_of w v.
Proof.
  intros He. pose proof (emitting_bound _ _ _ _ _ Hr He) as Hb.
  destruct Hk; unfold vec_of at 1;
    repeat match goal with H : w_vecs w' = _ |- _ => rewrite H; clear H end; try reflexivity.
  - rewrite vec_of_app by auto. reflexivity.
  - rewrite vec_of_app by auto. reflexivity.
  - rewrite list_lookup_insert_ne; [reflexivity|]. intros ->. eapply not_emitting; [exact Hr|exact Ht|eassumption|eassumption|exact He].
  - rewrite list_lookup_insert_ne; [reflexivity|]. intros ->. eapply not_emitting; [exact Hr|exact Ht|eassumption|eassumption|exact He].
Qed.

Lemma emit_lost v : emitting w t v -> ~ emitting w' t v -> ac = drop_vec w v.
Proof.
  intros He Hn. apply emitting_iff in He as (x & Hx & Ho). rewrite Ht in Hx. injection Hx as <-.
  assert (Hf : owns v st' <> true) by (intros E; apply Hn, emitting_iff; exists st'; split; [apply thr_t|exact E]).
  destruct Hk; try (exfalso; apply Hf; match goal with H : same_owns _ _ |- _ => rewrite H end; exact Ho).
  - exfalso. apply Hf. match goal with H : forall v', owns v' st' = _ |- _ => rewrite H end. rewrite Ho. apply orb_true_r.
  - destruct (decide (v = v0)) as [->|Hd]; [assumption|]. exfalso. apply Hf. match goal with H : forall v', v' <> _ -> _ |- _ => rewrite H by auto end. exact Ho.
Qed.

(** What becomes of a list that a signal holds. *)
Inductive after_sig (tr : list (tid * act)) (s : sid) (r : sigrec) (v : vid) (l : lid) : Prop :=
| AS_keep s' r' : on w' s' r' -> sg_vec r' = Some v -> l ∈ vec_of w' v ->
    (forall i, sealed tr s r i -> sealed (tr ++ blk t ac) s' r' i) -> after_sig tr s r v l
| AS_detach r' v' : on w' s r' -> sg_vec r' = Some v' -> l ∈ vec_of w' v' ->
    (forall i, sealed tr s r i -> sealed (tr ++ blk t ac) s r' i) -> Acq (YCount v) ∈ ac -> after_sig tr s r v l
| AS_destroy a b : ac = a ++ [Acq (YCount v); Rel (YCount v)] ++ b -> (forall i, sealed tr s r i -> known (tr ++ blk t a) t i) -> after_sig tr s r v l
| AS_take f : (forall i, sealed tr s r i -> known tr t i) -> f ∈ st -> crit_vec f = Some (s, v) ->
    taken_out (w_log w') l -> l ∉ vec_of w' v -> after_sig tr s r v l.

Lemma sig_step tr s r v l : on w s r -> sg_vec r = Some v -> l ∈ vec_of w v -> after_sig tr s r v l.
Proof.
  intros Ho Hv Hl. pose proof (vec_lt _ _ _ Ho Hv) as Hlt.
  assert (Hsame : w_sigs w' = w_sigs w -> l ∈ vec_of w' v -> after_sig tr s r v l).
  { intros E Hin. apply (AS_keep _ _ _ _ _ s r); auto; [destruct Ho; split; congruence|]. intros. apply sealed_mono. auto. }
  assert (Hvc : w_vecs w' = w_vecs w -> l ∈ vec_of w' v) by (intros E; unfold vec_of; rewrite E; exact Hl).
  destruct Hk as [E1 E2 _ _|? E1 E2 _ _ _ _|? E1 E2 _ _|s0 r0 Ho0 Hl0 E1 E2 _ _ Ea|s0 r0 Ho0 Hl0 E1 E2 _ _ Ea|c E1 E2 _ _
    |s0 r0 Ho0 Hl0 E1 E2 _ _ Ea|s0 r0 Ho0 Hl0 E1 E2 _ _ Ea|s0 r0 v0 Ho0 Hl0 Hv0 E1 E2 _ _ Ea|s0 r0 v0 as_ Ho0 Hl0 Hv0 E1 E2 _ _ Ea
    |s0 r0 v0 f Ho0 Hl0 Hv0 Hf Hc E1 E2 _ _ _ _|s0 r0 v0 f i0 l0 Ho0 Hl0 Hv0 Hf Hc Hi E1 E2 _ _ Hto|v0 _ E1 E2 _ _ _]; auto.
  - (* lock *) destruct (decide (s = s0)) as [->|Hn].
    + assert (r0 = r) as -> by (destruct Ho, Ho0; congruence). apply (AS_keep _ _ _ _ _ s0 (sg_set_lock (Some t) r)); auto.
      * destruct Ho as [Hs Ha]. split; [rewrite E1, list_lookup_alter, Hs; reflexivity|destruct r; auto].
      * intros i Hi. unfold RaceProof.sealed in *. rewrite Hl0 in Hi. destruct r; cbn. rewrite Ea. eapply publ_known_blk; [left|exact Hi|auto].
    + apply (AS_keep _ _ _ _ _ s r); auto; [destruct Ho; split; auto; rewrite E1, list_lookup_alter_ne; auto|]. intros. apply sealed_mono. auto.
  - (* unlock *) destruct (decide (s = s0)) as [->|Hn].
    + assert (r0 = r) as -> by (destruct Ho, Ho0; congruence). apply (AS_keep _ _ _ _ _ s0 (sg_set_lock None r)); auto.
      * destruct Ho as [Hs Ha]. split; [rewrite E1, list_lookup_alter, Hs; reflexivity|destruct r; auto].
      * intros i Hi. unfold RaceProof.sealed in *. rewrite Hl0 in Hi. destruct r; cbn. rewrite Ea. apply known_publ. auto.
    + apply (AS_keep _ _ _ _ _ s r); auto; [destruct Ho; split; auto; rewrite E1, list_lookup_alter_ne; auto|]. intros. apply sealed_mono. auto.
  - (* new *) apply (AS_keep _ _ _ _ _ s r); auto; [|unfold vec_of; rewrite E2, vec_of_app; auto|intros; apply sealed_mono; auto].
    destruct Ho as [Hs Ha]. split; auto. rewrite E1. apply lookup_app_l_Some. auto.
  - (* destroy *) destruct (decide (s = s0)) as [->|Hn].
    + assert (r0 = r) as -> by (destruct Ho, Ho0; congruence). rewrite Hv in Ea.
      apply (AS_destroy _ _ _ _ _ [Acq (YLock s0); Wr (LPtr s0)] (if Nat.leb (use_count w v) 1 then [Wr (LVec v)] else [])); [exact Ea|].
      intros i Hi. unfold RaceProof.sealed in *. rewrite Hl0 in Hi. eapply publ_known_blk; [left|exact Hi|auto].
    + apply (AS_keep _ _ _ _ _ s r); auto; [destruct Ho; split; auto; rewrite E1, list_lookup_alter_ne; auto|]. intros. apply sealed_mono. auto.
  - (* move *) destruct (decide (s = s0)) as [->|Hn].
    + assert (r0 = r) as -> by (destruct Ho, Ho0; congruence).
      apply (AS_keep _ _ _ _ _ (length (w_sigs w)) (SigRec true None (sg_vec r) (sg_blocked r) (sg_comb r))); auto.
      * split; [|reflexivity]. rewrite E1, lookup_app_r, alter_length, Nat.sub_diag by (rewrite alter_length; lia). reflexivity.
      * intros i Hi. unfold RaceProof.sealed in *. rewrite Hl0 in Hi. cbn. rewrite Ea.
        change [Wr (LPtr s0); Wr (LPtr (length (w_sigs w))); Rel (YLock (length (w_sigs w)))] with ([Wr (LPtr s0); Wr (LPtr (length (w_sigs w)))] ++ [Rel (YLock (length (w_sigs w)))]).
        rewrite blk_app. apply known_publ. apply known_mono. auto.
    + apply (AS_keep _ _ _ _ _ s r); auto; [|intros; apply sealed_mono; auto].
      destruct Ho as [Hs Ha]. split; auto. rewrite E1. apply lookup_app_l_Some. rewrite list_lookup_alter_ne; auto.
  - (* read *) destruct (decide (s = s0)) as [->|Hn].
    + assert (r0 = r) as -> by (destruct Ho, Ho0; congruence). apply (AS_keep _ _ _ _ _ s0 (sg_set_lock None r)); auto.
      * destruct Ho as [Hs Ha]. split; [rewrite E1, list_lookup_alter, Hs; reflexivity|destruct r; auto].
      * intros i Hi. unfold RaceProof.sealed in *. rewrite Hl0 in Hi. destruct r; cbn. rewrite Ea.
        change [Rd (LPtr s0); Rel (YLock s0); Rd (LVec v0)] with ([Rd (LPtr s0)] ++ [Rel (YLock s0)] ++ [Rd (LVec v0)]).
        rewrite !blk_app. apply publ_mono. apply known_publ. apply known_mono. auto.
    + apply (AS_keep _ _ _ _ _ s r); auto; [destruct Ho; split; auto; rewrite E1, list_lookup_alter_ne; auto|]. intros. apply sealed_mono. auto.
  - (* detach *) destruct (decide (s = s0)) as [->|Hn].
    + assert (r0 = r) as -> by (destruct Ho, Ho0; congruence). assert (v0 = v) as -> by congruence.
      apply (AS_detach _ _ _ _ _ (sg_set_vec (Some (length (w_vecs w))) r) (length (w_vecs w))).
      * destruct Ho as [Hs Ha]. split; [rewrite E1, list_lookup_alter, Hs; reflexivity|destruct r; auto].
      * destruct r; auto.
      * unfold vec_of at 1. rewrite E2, lookup_app_r, Nat.sub_diag by lia. exact Hl.
      * intros i Hi. apply sealed_mono. unfold RaceProof.sealed in *. destruct r; exact Hi.
      * rewrite Ea. apply elem_of_app. right. left.
    + apply (AS_keep _ _ _ _ _ s r); auto; [destruct Ho; split; auto; rewrite E1, list_lookup_alter_ne; auto|unfold vec_of; rewrite E2, vec_of_app; auto|]. intros. apply sealed_mono. auto.
  - (* add *) apply Hsame; [auto|]. unfold vec_of at 1. rewrite E2. destruct (decide (v = v0)) as [->|Hn].
    + rewrite list_lookup_insert by auto. cbn. apply elem_of_app. auto.
    + rewrite list_lookup_insert_ne by auto. exact Hl.
  - (* take *) destruct (decide (v = v0)) as [->|Hn].
    + destruct (one_sig _ _ _ _ _ Ho Ho0 Hv Hv0) as [-> ->].
      assert (Hnd : NoDup (vec_of w v0)).
      { destruct (I_list_inv _ _ _ Hr) as (Hnd & _). unfold vec_of in *. destruct (w_vecs w !! v0) as [xs|] eqn:E; [apply (Hnd _ _ E)|constructor]. }
      assert (E3 : vec_of w' v0 = swap_pop (vec_of w v0) i0) by (unfold vec_of at 1; rewrite E2, list_lookup_insert by auto; reflexivity).
      destruct (decide (l = l0)) as [->|Hd].
      * apply (AS_take _ _ _ _ _ f); auto; [intros i Hs; unfold RaceProof.sealed in Hs; rewrite Hl0 in Hs; exact Hs|].
        rewrite E3, (swap_pop_elem _ _ _ _ Hnd Hi). tauto.
      * apply Hsame; [auto|]. rewrite E3, (swap_pop_elem _ _ _ _ Hnd Hi). auto.
    + apply Hsame; [auto|]. unfold vec_of at 1. rewrite E2, list_lookup_insert_ne by auto. exact Hl.
Qed.

Definition gives_up : lid -> bool := gives_up_slot w t st w'.
Lemma gives_up_vec l v : in_vec w l v = true -> in_vec w' l v = false -> gives_up l = true.
Proof.
  intros H1 H2. unfold gives_up, gives_up_slot. apply orb_true_iff. right. apply existsb_exists. exists v.
  split; [|rewrite H1, H2; reflexivity]. apply in_seq. split; [lia|]. cbn.
  apply in_vec_iff in H1 as [[(s & r & Ho & Hv)|[u Hu]] _]; [eapply vec_lt; eauto|eapply emitting_bound; eauto].
Qed.
Lemma gives_up_pin l : pinning w t l -> ~ pinning w' t l -> gives_up l = true.
Proof.
  intros H1 H2. unfold gives_up, gives_up_slot. apply orb_true_iff. left. rewrite thr_t. cbn [default from_option]. apply Nat.ltb_lt.
  apply pinning_iff in H1 as (x & Hx & Hp). rewrite Ht in Hx. injection Hx as <-.
  destruct (tmps l st') eqn:E; [unfold id; lia|]. exfalso. apply H2, pinning_iff. exists st'. split; [apply thr_t|lia].
Qed.
Lemma gives_up_alive l : gives_up l = true -> slot_alive w l = true.
Proof.
  unfold gives_up, gives_up_slot. intros H. apply orb_true_iff in H as [H|H].
  - apply Nat.ltb_lt in H. apply alive_holds. exists (HPin t). apply pinning_iff. exists st. split; [exact Ht|lia].
  - apply existsb_exists in H as (v & _ & H). apply andb_true_iff in H as [H _]. eapply in_vec_alive; eauto.
Qed.

(** Knowledge of a slot, as long as somebody holds it. *)
Definition U (w : world) (tr : list (tid * act)) (l : lid) (i : nat) : Prop :=
  publ tr (YSlot l) i \/ (exists h, holds w l h /\ knows w tr h i) \/ (exists v, in_vec w l v = true /\ publ tr (YCount v) i).

Lemma emit_step u v : emitting w u v -> emitting w' u v \/ (u = t /\ ac = drop_vec w v).
Proof.
  intros He. destruct (decide (u = t)) as [->|Hn].
  - destruct (owns v st') eqn:E; [left; apply emitting_iff; exists st'; split; [apply thr_t|exact E]|].
    right. split; [auto|]. apply emit_lost; [auto|]. intros (x & Hx & Ho)%emitting_iff. rewrite thr_t in Hx. congruence.
  - left. apply emitting_iff in He as (x & Hx & Ho). apply emitting_iff. exists x. rewrite thr_u by auto. auto.
Qed.

Lemma hold_step tr l h i : holds w l h -> knows w tr h i ->
  U w' (tr ++ blk t ac) l i \/ (gives_up l = true /\ known (tr ++ blk t ac) t i).
Proof.
  intros Hh Hkn. destruct h as [u|s|u v]; cbn in Hh, Hkn.
  - destruct (decide (u = t)) as [->|Hn].
    + destruct (tmps l st') eqn:E.
      * right. split; [|apply known_mono; auto]. apply gives_up_pin; [auto|]. intros (x & Hx & Hp)%pinning_iff. rewrite thr_t in Hx. simplify_eq. lia.
      * left. right. left. exists (HPin t). split; [apply pinning_iff; exists st'; split; [apply thr_t|lia]|apply known_mono; auto].
    + left. right. left. exists (HPin u). split; [|apply known_mono; auto]. destruct Hh as (x & f & Hx & Hf). exists x, f. rewrite thr_u by auto. auto.
  - destruct Hh as (r & v & Ho & Hv & Hl). destruct Hkn as (r' & Ho' & Hs). assert (r' = r) as -> by (destruct Ho, Ho'; congruence).
    destruct (sig_step tr s r v l Ho Hv Hl) as [s' r' Ho1 Hv1 Hl1 Hi|r' v' Ho1 Hv1 Hl1 Hi _|a b Ea Hi|f Hi Hf Hc Hto Hno].
    + left. right. left. exists (HSig s'). split; [exists r', v; auto|exists r'; auto].
    + left. right. left. exists (HSig s). split; [exists r', v'; auto|exists r'; auto].
    + destruct (in_vec w' l v) eqn:E.
      * left. right. right. exists v. split; [auto|]. rewrite Ea, blk_app. change ([Acq (YCount v); Rel (YCount v)] ++ b) with ([Acq (YCount v)] ++ [Rel (YCount v)] ++ b).
        rewrite !blk_app. apply publ_mono, known_publ, known_mono. auto.
      * right. split; [apply (gives_up_vec l v); [apply in_vec_iff; split; [left; eauto|auto]|auto]|]. rewrite Ea, blk_app. apply known_mono. auto.
    + right. split; [|apply known_mono; auto]. apply (gives_up_vec l v); [apply in_vec_iff; split; [left; eauto|auto]|].
      destruct (in_vec w' l v) eqn:E; [|reflexivity]. apply in_vec_iff in E as [_ E]. contradiction.
  - destruct Hh as [He Hl]. pose proof (vec_keeps _ _ He) as Ev. destruct (emit_step _ _ He) as [He'|[-> Ea]].
    + left. right. left. exists (HEmit u v). split; [split; [auto|rewrite Ev; auto]|apply known_mono; auto].
    + destruct (in_vec w' l v) eqn:E.
      * left. right. right. exists v. split; [auto|]. rewrite Ea. unfold drop_vec. change ([Acq (YCount v); Rel (YCount v)]) with ([Acq (YCount v)] ++ [Rel (YCount v)]).
        rewrite !blk_app. apply publ_mono, known_publ, known_mono. auto.
      * right. split; [apply (gives_up_vec l v); [apply in_vec_iff; split; [right; eauto|auto]|auto]|]. apply known_mono. auto.
Qed.

Lemma vec_step tr l v i : Inv w tr -> uses \/ ~ taken_out (w_log w') l -> in_vec w l v = true -> publ tr (YCount v) i ->
  U w' (tr ++ blk t ac) l i \/ (gives_up l = true /\ known (tr ++ blk t ac) t i).
Proof.
  intros HI Hfine Hin Hp. destruct (in_vec w' l v) eqn:E; [left; right; right; exists v; split; [auto|apply publ_mono; auto]|].
  right. split; [eapply gives_up_vec; eauto|].
  assert (Hacq : Acq (YCount v) ∈ ac -> known (tr ++ blk t ac) t i) by (intros H; eapply publ_known_blk; eauto).
  apply in_vec_iff in Hin as [[(s & r & Ho & Hv)|[u Hu]] Hl].
  - destruct (sig_step tr s r v l Ho Hv Hl) as [s' r' Ho1 Hv1 Hl1 Hi|r' v' Ho1 Hv1 Hl1 Hi Ha|a b Ea Hi|f Hi Hf Hc Hto Hno].
    + exfalso. assert (in_vec w' l v = true) by (apply in_vec_iff; split; [left; eauto|auto]). congruence.
    + auto.
    + apply Hacq. rewrite Ea. apply elem_of_app. right. left.
    + destruct Hfine as [Hu|Hn]; [|contradiction]. apply known_mono. eapply (V_crit _ _ _ _ HI Hu); eauto.
  - destruct (emit_step _ _ Hu) as [He'|[-> Ea]].
    + exfalso. assert (in_vec w' l v = true) by (apply in_vec_iff; split; [right; eauto|rewrite (vec_keeps _ _ Hu); auto]). congruence.
    + apply Hacq. rewrite Ea. left.
Qed.

(** Who holds an old slot after the step held it before, or got it from
    somebody who did. *)
Lemma gain_step tr l h' : l < length (w_slots w) -> holds w' l h' ->
  (exists h, holds w l h /\ forall i, knows w tr h i -> knows w' (tr ++ blk t ac) h' i) \/
  (h' = HPin t /\ slot_uses w t st w' = [Acq (YHand l); Pin l; Rd (LSlot l)] /\ slot_alive w l = true).
Proof.
  intros Hlt Hh. destruct h' as [u|s|u v]; cbn in Hh.
  - destruct (decide (u = t)) as [->|Hn].
    + destruct (tmps l st) eqn:E.
      * apply pinning_iff in Hh as (x & Hx & Hp). rewrite thr_t in Hx. injection Hx as <-.
        destruct Hk; try (exfalso; match goal with H : same_tmps _ _ |- _ => rewrite (H l) in Hp end; lia).
        -- right. match goal with H : forall l', tmps l' st' = _ |- _ => rewrite (H l) in Hp end. case_decide; [subst|lia]. auto.
        -- exfalso. match goal with H : forall l', tmps l' st = _ |- _ => specialize (H l) end. lia.
      * left. exists (HPin t). split; [apply pinning_iff; exists st; split; [auto|lia]|]. intros i. apply known_mono.
    + left. exists (HPin u). split; [|intros i; apply known_mono]. destruct Hh as (x & f & Hx & Hf). rewrite thr_u in Hx by auto. exists x, f. auto.
  - left. destruct Hh as (r & v & Ho & Hv & Hl).
    assert (Hsame : forall r1 v1, on w s r1 -> sg_vec r1 = Some v1 -> l ∈ vec_of w v1 -> sg_lock r1 = sg_lock r ->
      exists h, holds w l h /\ forall i, knows w tr h i -> knows w' (tr ++ blk t ac) (HSig s) i).
    { intros r1 v1 H1 H2 H3 H4. exists (HSig s). split; [exists r1, v1; auto|]. intros i (r2 & Ho2 & Hi). exists r. split; [auto|].
      assert (r2 = r1) as -> by (destruct H1, Ho2; congruence). apply sealed_mono. unfold RaceProof.sealed in *. rewrite H4 in Hi. exact Hi. }
    assert (Hvc : w_vecs w' = w_vecs w -> l ∈ vec_of w v) by (intros E; unfold vec_of in *; rewrite E in Hl; exact Hl).
    assert (Hsg : w_sigs w' = w_sigs w -> on w s r) by (intros E; destruct Ho as [Hs Ha]; rewrite E in Hs; split; auto).
    destruct Hk as [E1 E2 _ _|? E1 E2 _ _ _ _|? E1 E2 _ _|s0 r0 Ho0 Hl0 E1 E2 _ _ Ea|s0 r0 Ho0 Hl0 E1 E2 _ _ Ea|c E1 E2 _ _
      |s0 r0 Ho0 Hl0 E1 E2 _ _ Ea|s0 r0 Ho0 Hl0 E1 E2 _ _ Ea|s0 r0 v0 Ho0 Hl0 Hv0 E1 E2 _ _ Ea|s0 r0 v0 as_ Ho0 Hl0 Hv0 E1 E2 _ _ Ea
      |s0 r0 v0 f Ho0 Hl0 Hv0 Hf Hc E1 E2 _ _ _ _|s0 r0 v0 f i0 l0 Ho0 Hl0 Hv0 Hf Hc Hi E1 E2 _ _ Hto|v0 _ E1 E2 _ _ _]; try (apply (Hsame r v); auto; fail).
    + (* lock *) destruct Ho as [Hs Ha]. rewrite E1, alter_lookup in Hs. case_decide as Ed; [subst s|apply (Hsame r v); auto; split; auto].
      rewrite (proj1 Ho0) in Hs. cbn in Hs. injection Hs as <-. exists (HSig s0). split; [exists r0, v; destruct r0; auto|].
      intros i (r2 & [Ho2 _] & Hi). rewrite (proj1 Ho0) in Ho2. injection Ho2 as <-. exists (sg_set_lock (Some t) r0). split; [split; [rewrite E1, list_lookup_alter, (proj1 Ho0); reflexivity|exact Ha]|].
      unfold RaceProof.sealed in *. rewrite Hl0 in Hi. destruct r0; cbn. rewrite Ea. eapply publ_known_blk; [left|exact Hi|auto].
    + (* unlock *) destruct Ho as [Hs Ha]. rewrite E1, alter_lookup in Hs. case_decide as Ed; [subst s|apply (Hsame r v); auto; split; auto].
      rewrite (proj1 Ho0) in Hs. cbn in Hs. injection Hs as <-. exists (HSig s0). split; [exists r0, v; destruct r0; auto|].
      intros i (r2 & [Ho2 _] & Hi). rewrite (proj1 Ho0) in Ho2. injection Ho2 as <-. exists (sg_set_lock None r0). split; [split; [rewrite E1, list_lookup_alter, (proj1 Ho0); reflexivity|exact Ha]|].
      unfold RaceProof.sealed in *. rewrite Hl0 in Hi. destruct r0; cbn. rewrite Ea. apply known_publ. auto.
    + (* new *) destruct Ho as [Hs Ha]. rewrite E1 in Hs. apply snoc_lookup in Hs as [[Hs _]|[-> ->]].
      * apply (Hsame r v); auto; [split; auto|]. assert (Hb : v < length (w_vecs w)) by (eapply vec_lt; [split; eauto|eauto]).
        unfold vec_of in Hl. rewrite E2, vec_of_app in Hl by auto. exact Hl.
      * cbn in Hv. injection Hv as <-. exfalso. unfold vec_of in Hl. rewrite E2, lookup_app_r, Nat.sub_diag in Hl by lia. inversion Hl.
    + (* destroy *) destruct Ho as [Hs Ha]. rewrite E1, alter_lookup in Hs. case_decide as Ed; [subst s|apply (Hsame r v); auto; split; auto].
      rewrite (proj1 Ho0) in Hs. cbn in Hs. injection Hs as <-. destruct r0; discriminate.
    + (* move *) destruct Ho as [Hs Ha]. rewrite E1 in Hs. apply snoc_lookup in Hs as [[Hs _]|[-> ->]].
      * rewrite alter_lookup in Hs. case_decide as Ed; [subst s|apply (Hsame r v); auto; split; auto].
        rewrite (proj1 Ho0) in Hs. cbn in Hs. injection Hs as <-. destruct r0; discriminate.
      * rewrite alter_length in *. cbn in Hv. exists (HSig s0). split; [exists r0, v; auto|].
        intros i (r2 & [Ho2 _] & Hi). rewrite (proj1 Ho0) in Ho2. injection Ho2 as <-.
        eexists. split; [split; [rewrite E1, lookup_app_r, alter_length, Nat.sub_diag by (rewrite alter_length; lia); reflexivity|reflexivity]|].
        unfold RaceProof.sealed in *. rewrite Hl0 in Hi. cbn. rewrite Ea.
        change [Wr (LPtr s0); Wr (LPtr (length (w_sigs w))); Rel (YLock (length (w_sigs w)))] with ([Wr (LPtr s0); Wr (LPtr (length (w_sigs w)))] ++ [Rel (YLock (length (w_sigs w)))]).
        rewrite blk_app. apply known_publ. apply known_mono. auto.
    + (* read *) destruct Ho as [Hs Ha]. rewrite E1, alter_lookup in Hs. case_decide as Ed; [subst s|apply (Hsame r v); auto; split; auto].
      rewrite (proj1 Ho0) in Hs. cbn in Hs. injection Hs as <-. exists (HSig s0). split; [exists r0, v; destruct r0; auto|].
      intros i (r2 & [Ho2 _] & Hi). rewrite (proj1 Ho0) in Ho2. injection Ho2 as <-. exists (sg_set_lock None r0). split; [split; [rewrite E1, list_lookup_alter, (proj1 Ho0); reflexivity|exact Ha]|].
      unfold RaceProof.sealed in *. rewrite Hl0 in Hi. destruct r0; cbn. rewrite Ea.
      change [Rd (LPtr s0); Rel (YLock s0); Rd (LVec v0)] with ([Rd (LPtr s0)] ++ [Rel (YLock s0)] ++ [Rd (LVec v0)]).
      rewrite !blk_app. apply publ_mono. apply known_publ. apply known_mono. auto.
    + (* detach *) destruct Ho as [Hs Ha]. rewrite E1, alter_lookup in Hs. case_decide as Ed.
      * subst s. rewrite (proj1 Ho0) in Hs. cbn in Hs. injection Hs as <-.
        apply (Hsame r0 v0); auto. destruct r0; cbn in Hv. injection Hv as <-.
        unfold vec_of in Hl at 1. rewrite E2, lookup_app_r, Nat.sub_diag in Hl by lia. exact Hl.
      * apply (Hsame r v); auto; [split; auto|]. assert (Hb : v < length (w_vecs w)) by (eapply vec_lt; [split; eauto|eauto]).
        unfold vec_of in Hl. rewrite E2, vec_of_app in Hl by auto. exact Hl.
    + (* add *) apply (Hsame r v); auto. unfold vec_of in Hl at 1. rewrite E2 in Hl. destruct (decide (v = v0)) as [->|Hn].
      * rewrite list_lookup_insert in Hl by (eapply vec_lt; eauto). cbn in Hl. apply elem_of_app in Hl as [Hl|Hl]; [exact Hl|].
        apply elem_of_list_singleton in Hl. lia.
      * rewrite list_lookup_insert_ne in Hl by auto. exact Hl.
    + (* take *) apply (Hsame r v); auto. unfold vec_of in Hl at 1. rewrite E2 in Hl. destruct (decide (v = v0)) as [->|Hn].
      * rewrite list_lookup_insert in Hl by (eapply vec_lt; eauto). cbn in Hl.
        assert (Hnd : NoDup (vec_of w v0)).
        { destruct (I_list_inv _ _ _ Hr) as (Hnd & _). unfold vec_of in *. destruct (w_vecs w !! v0) as [xs|] eqn:E; [apply (Hnd _ _ E)|constructor]. }
        apply (swap_pop_elem _ _ _ _ Hnd Hi) in Hl. tauto.
      * rewrite list_lookup_insert_ne in Hl by auto. exact Hl.
  - left. destruct Hh as [He Hl].
    assert (Hold : emitting w u v -> exists h, holds w l h /\ forall i, knows w tr h i -> knows w' (tr ++ blk t ac) (HEmit u v) i).
    { intros He0. exists (HEmit u v). split; [split; [auto|rewrite <- (vec_keeps _ _ He0); auto]|]. intros i. apply known_mono. }
    apply emitting_iff in He as (x & Hx & Hw). destruct (decide (u = t)) as [->|Hn].
    2: { apply Hold, emitting_iff. exists x. rewrite <- thr_u; auto. }
    rewrite thr_t in Hx. injection Hx as <-. destruct (owns v st) eqn:E; [apply Hold, emitting_iff; eauto|]. clear Hold.
    destruct Hk; try (exfalso; match goal with H : same_owns _ _ |- _ => rewrite (H v) in Hw end; congruence).
    + rename v0 into v1. match goal with H : forall v', owns v' st' = _ |- _ => rewrite (H v), E, orb_false_r in Hw end. apply bool_decide_eq_true in Hw as ->.
      exists (HSig s). split; [exists r, v; split; [auto|]; split; [auto|]|].
      * unfold vec_of in *. match goal with H : w_vecs w' = _ |- _ => rewrite H in Hl end. exact Hl.
      * intros i (r2 & [Ho2 _] & Hi). destruct H as [Hs _]. rewrite Hs in Ho2. injection Ho2 as <-. cbn. apply known_mono.
        unfold RaceProof.sealed in Hi. match goal with H : sg_lock _ = Some t |- _ => rewrite H in Hi end. exact Hi.
    + exfalso. destruct (decide (v = v0)) as [->|Hd].
      * match goal with H : emitting w t v0 |- _ => apply emitting_iff in H as (y & Hy & Hyo) end. rewrite Ht in Hy. injection Hy as <-. congruence.
      * match goal with H : forall v', v' <> _ -> _ |- _ => rewrite (H v Hd) in Hw end. congruence.
Qed.
End one.
End proof.
