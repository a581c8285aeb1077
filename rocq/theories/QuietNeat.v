(** * Clients that destroy the connections they make leave nothing behind: proofs *)
From Verif Require Import InvFault InvDeath.
From Verif Require Export QuietList.

(** ** Programs *)
Lemma frees_bindp c p f : frees c p -> frees c (bindp p f).
Proof. induction 1; cbn; [constructor|apply Fr_later; auto]. Qed.
Lemma neat_bindp p f : neat p -> (forall o, neat (f o)) -> neat (bindp p f).
Proof. intros Hp Hf. induction Hp as [o|o k Hu Hm Hk IH]; cbn; [auto|]. constructor; auto. intros H c. apply frees_bindp, Hm. exact H. Qed.
Lemma neat_olv n p a : neat (olv n p a).
Proof. revert p a. induction n as [|n IH]; intros p a; cbn; constructor; try reflexivity; try discriminate. intros r. repeat case_match; try apply IH; constructor. Qed.

Section neat.
Context (e : env).
Hypothesis He : neat_env e.
Lemma neat_try b x y : neat (try_equals e b x y).
Proof. unfold try_equals. destruct (e_cmp e b); [apply He|constructor]. Qed.
Lemma neat_slot_eq a b : neat (slot_eq e a b).
Proof.
  unfold slot_eq, impl_eq. repeat case_match; try constructor; try apply neat_try; apply neat_bindp; try apply neat_try; intros o; repeat case_match; try constructor; apply neat_try.
Qed.
Lemma neat_comb c n : neat (combiner e c n).
Proof. destruct c; cbn; [apply He|apply neat_olv]. Qed.

(** ** Frames *)
Definition fr_neat (f : frame) (r : list frame) : Prop :=
  match f with
  | FProg p => neat p
  | FWait k | FDeref k _ _ => forall x, neat (k x)
  | FMkConn sc => sc = true /\ match r with FWait k :: _ => forall c, frees c (k (OutId c)) | _ => True end
  | FAssign _ _ _ | FAssignMv _ _ _ | FErase _ _ _ _ _ _ | FEraseCmp _ _ _ _ _ _ => False
  | FLock _ k | FWrite _ k | FBody _ _ k => match k with KMove | KErase _ => False | _ => True end
  | _ => True
  end.
Lemma neat_inv o k : neat (Do o k) -> untidy_op o = false /\ (makes_scoped o = true -> forall c, frees c (k (OutId c))) /\ forall r, neat (k r).
Proof. inversion 1; auto. Qed.
Lemma tidy_after w t v x l after : exec_vop w t v = VDo x l after -> untidy_op (OVar v) = false -> after = [] \/ after = [FUnit l].
Proof.
  unfold exec_vop. intros H Hu. destruct v; try discriminate; repeat (dm H; try discriminate); apply disc_res_after in H as (-> & _ & _); auto.
Qed.
Lemma neat_trans w t st w' st' : trans e w t st w' st' -> AT fr_neat st -> AT fr_neat st'.
Proof.
  intros Htr HA. destruct Htr; cbn [AT] in HA |- *; repeat match goal with H : _ /\ _ |- _ => destruct H end; try assumption;
    repeat match goal with H : fr_neat (FProg (Do _ _)) _ |- _ => let H1 := fresh "Hd" in let H2 := fresh "Hm" in apply neat_inv in H as (H1 & H2 & ?) end;
    try match goal with H : exec_vop _ _ _ = VDo _ _ _ |- _ => apply tidy_after in H as [-> | ->]; [| |assumption]; cbn [app AT] end;
    try match goal with H : begins _ _ _ _ _ |- _ => destruct H; cbn [app AT] end;
    cbn in *; repeat match goal with |- _ /\ _ => split end; auto; try contradiction; try discriminate;
    try apply neat_slot_eq; try apply neat_comb; try apply He.
  - destruct sc; [reflexivity|discriminate].
  - destruct sc; [auto|discriminate].
  - destruct sc; [reflexivity|discriminate].
  - destruct sc; [auto|discriminate].
Qed.
End neat.
(** ** Connection variables *)
Definition holds (x : vars) (l : lid) : Prop := exists c r, v_conns x !! c = Some r /\ cn_live r = true /\ cn_slot r = Some l.
Lemma get_conn_Some x c r : get_conn x c = Some r -> v_conns x !! c = Some r /\ cn_live r = true.
Proof. unfold get_conn. destruct (v_conns x !! c) as [r'|]; [|discriminate]. destruct (cn_live r') eqn:E; [|discriminate]. intros [= ->]. auto. Qed.
Lemma put_lookup x c m c' r : v_conns (put_conn x c m) !! c' = Some r ->
  exists r0, v_conns x !! c' = Some r0 /\ cn_live r = cn_live r0 /\ cn_scoped r = cn_scoped r0 /\ cn_slot r = if decide (c' = c) then m else cn_slot r0.
Proof.
  cbn. rewrite alter_lookup. destruct (decide (c' = c)) as [->|Hn]; [rewrite decide_True by auto|rewrite decide_False by congruence].
  - destruct (v_conns x !! c) as [r0|]; [|discriminate]. cbn. intros [= <-]. exists r0. auto.
  - intros H1. exists r. auto.
Qed.
Lemma lookup_put x c m c' r0 : v_conns x !! c' = Some r0 ->
  v_conns (put_conn x c m) !! c' = Some (ConnV (cn_live r0) (cn_scoped r0) (if decide (c' = c) then m else cn_slot r0)).
Proof. cbn. rewrite alter_lookup. intros ->. repeat case_decide; subst; try congruence; cbn; [reflexivity|destruct r0; reflexivity]. Qed.
Lemma kill_lookup x c c' r : v_conns (kill_conn x c) !! c' = Some r -> cn_live r = true -> c' <> c /\ v_conns x !! c' = Some r.
Proof.
  cbn. rewrite alter_lookup. destruct (decide (c' = c)) as [->|Hn]; [rewrite decide_True by auto|rewrite decide_False by congruence; auto]. destruct (v_conns x !! c) as [r0|]; [|discriminate]. cbn. intros [= <-]. discriminate.
Qed.
Lemma lookup_kill x c c' r : c' <> c -> v_conns x !! c' = Some r -> v_conns (kill_conn x c) !! c' = Some r.
Proof. intros Hn H. cbn. rewrite alter_lookup, decide_False by congruence. exact H. Qed.

Definition conn_old (w : world) (v : vop) (c : cid) (r : connv) : Prop :=
  exists r0, v_conns (w_vars w) !! c = Some r0 /\ cn_live r0 = true /\ cn_scoped r = cn_scoped r0 /\ v <> VDestroyConn c.
Lemma conns_new w t v x o ef c r : exec_vop w t v = VOk x o ef -> untidy_op (OVar v) = false -> v_conns x !! c = Some r -> cn_live r = true ->
  conn_old w v c r \/ (makes_scoped (OVar v) = true /\ o = OutId c /\ cn_scoped r = true /\ ef = EfNone).
Proof.
  intros H Hu Hc Hl.
  assert (Hsame : v_conns x = v_conns (w_vars w) -> (forall c, v <> VDestroyConn c) -> conn_old w v c r) by (intros Hx Hv; rewrite Hx in Hc; exists r; auto).
  destruct v; try discriminate; unfold exec_vop, disc_res in H; cbv zeta in H; repeat (dm H; try discriminate); simplify_eq;
    try (left; apply Hsame; [reflexivity|discriminate]; fail).
  - destruct scoped; [|discriminate]. cbn in Hc. apply snoc_lookup in Hc as [[Hc _]|[-> ->]]; [left; exists r; repeat split; auto; discriminate|right; auto].
  - destruct scoped; [|discriminate]. cbn [add_conn set_conns v_conns] in Hc. apply snoc_lookup in Hc as [[Hc _]|[-> ->]].
    + apply put_lookup in Hc as (r0 & Hr0 & Hl0 & Hs0 & _). left. exists r0. repeat split; auto; congruence.
    + right. repeat split; auto. cbn. rewrite alter_length. reflexivity.
  - apply put_lookup in Hc as (r1 & Hr1 & Hl1 & Hs1 & _). apply put_lookup in Hr1 as (r2 & Hr2 & Hl2 & Hs2 & _). left. exists r2. repeat split; auto; congruence.
  - apply kill_lookup in Hc as [Hn Hc]; [|exact Hl]. left. exists r. repeat split; auto; congruence.
  - apply kill_lookup in Hc as [Hn Hc]; [|exact Hl]. left. exists r. repeat split; auto; congruence.
Qed.
Lemma conns_do w t v x l after c r : exec_vop w t v = VDo x l after -> untidy_op (OVar v) = false -> v_conns x !! c = Some r -> cn_live r = true -> conn_old w v c r.
Proof.
  intros H Hu Hc Hl.
  destruct v; try discriminate; unfold exec_vop, disc_res in H; cbv zeta in H; repeat (dm H; try discriminate); simplify_eq.
  - apply kill_lookup in Hc as [Hn Hc]; [|exact Hl]. exists r. repeat split; auto; congruence.
  - exists r. repeat split; auto; discriminate.
Qed.
Lemma holds_new w t v x o ef l : exec_vop w t v = VOk x o ef -> untidy_op (OVar v) = false -> (forall c r, v_conns (w_vars w) !! c = Some r -> cn_scoped r = true) ->
  holds (w_vars w) l -> holds x l.
Proof.
  intros H Hu Hsc (c & r & Hc & Hl & Hs).
  assert (Hsame : v_conns x = v_conns (w_vars w) -> holds x l) by (intros Hx; exists c, r; rewrite Hx; auto).
  destruct v; try discriminate; unfold exec_vop, disc_res in H; cbv zeta in H; repeat (dm H; try discriminate); simplify_eq;
    try (apply Hsame; reflexivity); repeat match goal with H : get_conn _ _ = Some _ |- _ => apply get_conn_Some in H as [? ?] end.
  - exists c, r. split; [apply lookup_app_l_Some; exact Hc|auto].
  - rename c0 into d. destruct (decide (c = d)) as [->|Hn].
    + exists (length (v_conns (w_vars w))), (ConnV true scoped (cn_slot r)). split; [|auto]. simplify_eq.
      cbn [add_conn set_conns v_conns put_conn]. rewrite lookup_app_r; rewrite alter_length; [|lia]. rewrite Nat.sub_diag. reflexivity.
    + exists c, r. split; [|auto]. cbn [add_conn set_conns v_conns put_conn]. apply lookup_app_l_Some. rewrite alter_lookup, decide_False by congruence. exact Hc.
  - match goal with H1 : v_conns _ !! ?a = Some ?ra, H2 : v_conns _ !! ?b = Some ?rb |- holds (put_conn (put_conn _ ?a _) ?b _) _ =>
      rename a into a0; rename b into b0; rename ra into ra0; rename rb into rb0; rename H1 into Ha; rename H2 into Hb end.
    destruct (decide (c = a0)) as [->|Hna]; [|destruct (decide (c = b0)) as [->|Hnb]].
    + simplify_eq. exists b0. eexists. split; [apply lookup_put, lookup_put; exact Hb|]. cbn. split; [auto|]. rewrite decide_True by auto. exact Hs.
    + simplify_eq. exists a0. eexists. split; [apply lookup_put, lookup_put; exact Ha|]. cbn. split; [auto|]. rewrite decide_False, decide_True by congruence. exact Hs.
    + exists c. eexists. split; [apply lookup_put, lookup_put; exact Hc|]. cbn. split; [auto|]. rewrite !decide_False by congruence. exact Hs.
  - exists c, r. split; [|auto]. apply lookup_kill; [|exact Hc]. intros ->. simplify_eq; congruence.
  - match goal with H : v_conns _ !! ?a = Some ?ra, H' : cn_scoped ?ra = false |- _ => rewrite (Hsc _ _ H) in H'; discriminate H' end.
Qed.
Lemma holds_do w t v x l' after l : exec_vop w t v = VDo x l' after -> untidy_op (OVar v) = false -> holds (w_vars w) l -> l = l' \/ holds x l.
Proof.
  intros H Hu (c & r & Hc & Hl & Hs).
  destruct v; try discriminate; unfold exec_vop, disc_res in H; cbv zeta in H; repeat (dm H; try discriminate); simplify_eq;
    repeat match goal with H : get_conn _ _ = Some _ |- _ => apply get_conn_Some in H as [? ?] end.
  - destruct (decide (c = c0)) as [->|Hn]; [left; simplify_eq; congruence|]. right. exists c, r. split; [apply lookup_kill; auto|auto].
  - right. exists c, r. auto.
Qed.

(** ** Somewhere in a stack *)
Fixpoint EX (P : frame -> list frame -> Prop) (st : list frame) : Prop :=
  match st with [] => False | f :: r => P f r \/ EX P r end.
Lemma EX_app P a b : EX P b -> EX P (a ++ b).
Proof. induction a as [|f a IH]; cbn; auto. Qed.

(** The code that will destroy connection [c]. *)
Definition covers (c : cid) (f : frame) (r : list frame) : Prop :=
  match f with
  | FProg p => frees c p
  | FWait k | FDeref k _ _ => forall x, frees c (k x)
  | FRet (OutId c') => c' = c /\ match r with FWait k :: _ => frees c (k (OutId c)) | _ => False end
  | _ => False
  end.
Definition kills (o : op) (c : cid) : Prop := o = OVar (VDestroyConn c).
Lemma frees_inv c o k : frees c (Do o k) -> kills o c \/ forall r, frees c (k r).
Proof. inversion 1; [left; reflexivity|auto]. Qed.
Lemma covers_trans e w t st w' st' c : trans e w t st w' st' -> AT fr_neat st ->
  (exists r, v_conns (w_vars w') !! c = Some r /\ cn_live r = true) -> EX (covers c) st -> EX (covers c) st'.
Proof.
  intros Htr HN (r & Hc & Hl) HE.
  assert (Hkill : forall v k st0, st = FProg (Do (OVar v) k) :: st0 -> v <> VDestroyConn c).
  { intros v k st0 -> ->. cbn in HN. destruct HN as [HN _]. apply neat_inv in HN as (Hu & _).
    inversion Htr; subst; match goal with H : exec_vop _ _ _ = _ |- _ => first
      [destruct (conns_new _ _ _ _ _ _ _ _ H Hu Hc Hl) as [(r0 & _ & _ & _ & Hx)|(Hx & _)]; [congruence|discriminate]
      |destruct (conns_do _ _ _ _ _ _ _ _ H Hu Hc Hl) as (r0 & _ & _ & _ & Hx); congruence] | H : can_oom _ |- _ => contradiction H | H : begins _ _ _ _ _ |- _ => inversion H end. }
  assert (Hk : forall o k st0, st = FProg (Do o k) :: st0 -> frees c (Do o k) -> forall x, frees c (k x)).
  { intros o k st0 Hst Hf. apply frees_inv in Hf as [-> |Hf]; [|exact Hf]. destruct (Hkill _ _ _ Hst eq_refl). }
  assert (Hret : forall o r0, covers c (FRet o) r0 -> o = OutId c /\ exists k r1, r0 = FWait k :: r1 /\ frees c (k (OutId c))).
  { intros o r0. cbn. destruct o; try contradiction. intros [-> H]. destruct r0 as [|[] r0]; try contradiction. eauto. }
  destruct Htr; cbn [EX] in HE |- *;
    try (destruct HE as [HE|HE]; [cbn in HE; try contradiction; try (pose proof (Hk _ _ _ eq_refl HE) as HK); eauto; fail|eauto]; fail);
    try (destruct HE as [HE|HE]; [apply Hret in HE as (_ & ? & ? & HE & _); discriminate HE|]; cbn in HE |- *; intuition eauto; fail).
  all: try (destruct HE as [HE|HE]; [pose proof (Hk _ _ _ eq_refl HE) as HK|]; cbn; intuition eauto; fail).
  all: try (right; apply EX_app; destruct HE as [HE|HE]; [left; pose proof (Hk _ _ _ eq_refl HE) as HK; exact HK|right; exact HE]; fail).
  - destruct HE as [HE|HE]; [inversion HE|auto].
  - destruct HE as [HE|[HE|HE]]; [|left; apply HE|auto]. apply Hret in HE as (-> & k1 & r1 & Hx & HE). injection Hx as <- <-. left. exact HE.
Qed.

(** A slot whose connection object is on its way: just connected, or about to be disconnected. *)
Definition flies (l : lid) (f : frame) (r : list frame) : Prop :=
  match f with
  | FDisc l' => l' = l
  | FUnlock _ (OutId l') | FRet (OutId l') => l' = l /\ match r with FMkConn _ :: _ => True | _ => False end
  | _ => False
  end.
Lemma vop_flag w t v x o ev log l : exec_vop w t v = VOk x o (EfLog ev) -> spec_flag (ev :: log) l = spec_flag log l.
Proof. intros H. apply vop_ev in H as [(?&->&?)|[(?&->&?)|[(?&->&?)|[(?&->&?&?)|(?&->&?&?)]]]]; reflexivity. Qed.
Lemma flag_new e w t st w' st' l : trans e w t st w' st' -> AT adj st -> spec_flag (w_log w') l = true ->
  spec_flag (w_log w) l = true \/ EX (flies l) st'.
Proof.
  intros Htr Ha Hf. destruct Htr; wcbn_in Hf; autorewrite with wsimp in Hf; auto.
  - left. erewrite vop_flag in Hf by eauto. exact Hf.
  - left. erewrite vop_flag in Hf by eauto. exact Hf.
  - left. cbn in Hf. destruct (cc_log w r) as [Hc|(l0 & i0 & _ & _ & _ & Hc)]; rewrite Hc in Hf; [auto|]. cbn in Hf. case_decide; [discriminate|auto].
  - left. cbn in Hf. case_decide; [discriminate|auto].
  - cbn in Hf. case_decide; [subst|auto]. right. cbn in Ha |- *. destruct Ha as [Ha _]. left. split; [reflexivity|]. destruct st as [|[] st]; auto.
Qed.
Lemma flies_trans e ps w t st w' st' l : reachable e ps w -> w_thr w !! t = Some st -> trans e w t st w' st' -> spec_flag (w_log w') l = true ->
  EX (flies l) st -> EX (flies l) st' \/ holds (w_vars w') l.
Proof.
  intros Hr Ht Htr Hf HE.
  assert (Hret : forall o r0, flies l (FRet o) r0 -> o = OutId l /\ exists sc r1, r0 = FMkConn sc :: r1).
  { intros o r0. cbn. destruct o; try contradiction. intros [-> H]. destruct r0 as [|[] r0]; try contradiction. eauto. }
  destruct Htr; cbn [EX] in HE |- *;
    try (destruct HE as [HE|HE]; [contradiction HE|auto]; fail);
    try (destruct HE as [HE|HE]; [apply Hret in HE as (? & ? & ? & HE); discriminate HE|]; cbn in HE |- *; intuition eauto; fail);
    try (left; right; apply EX_app; right; destruct HE as [HE|HE]; [contradiction HE|exact HE]; fail).
  - destruct HE as [HE|HE]; [cbn in HE|auto]. subst. wcbn_in Hf. cbn in Hf. rewrite decide_True in Hf by auto. discriminate.
  - destruct HE as [HE|HE]; [cbn in HE|auto]. subst. wcbn_in Hf. cbn in Hf. destruct (I_fields_inv _ _ _ Hr _ _ H) as (_ & Hc & _). congruence.
  - destruct HE as [HE|HE]; [left; left; exact HE|auto].
  - destruct HE as [HE|[HE|HE]]; [|contradiction HE|auto]. apply Hret in HE as (HE & _). injection HE as ->. right.
    exists (length (v_conns (w_vars w))). eexists. split; [cbn; rewrite lookup_app_r, Nat.sub_diag by lia; reflexivity|auto].
  - destruct HE as [HE|[HE|HE]]; [|contradiction HE|auto]. apply Hret in HE as (HE & _). destruct (H _ HE).
Qed.

(** Connection variables stay scoped. *)
Definition all_scoped (x : vars) : Prop := forall c r, v_conns x !! c = Some r -> cn_scoped r = true.
Lemma put_scoped x c m : all_scoped x -> all_scoped (put_conn x c m).
Proof. intros H c' r Hc. apply put_lookup in Hc as (r0 & Hr0 & _ & Hs & _). rewrite Hs. eauto. Qed.
Lemma kill_scoped x c : all_scoped x -> all_scoped (kill_conn x c).
Proof.
  intros H c' r. cbn. rewrite alter_lookup. destruct (decide (c = c')) as [->|Hn]; [|apply H].
  destruct (v_conns x !! c') as [r0|] eqn:E; [|discriminate]. cbn. intros [= <-]. cbn. eauto.
Qed.
Lemma add_scoped x m : all_scoped x -> all_scoped (add_conn x (ConnV true true m)).
Proof. intros H c r. cbn. intros Hc. apply snoc_lookup in Hc as [[Hc _]|[-> ->]]; [eauto|reflexivity]. Qed.
Lemma vop_scoped w t v : untidy_op (OVar v) = false -> all_scoped (w_vars w) ->
  match exec_vop w t v with VOk x _ _ | VDo x _ _ => all_scoped x | VBad _ => True end.
Proof.
  intros Hu H. destruct v; try discriminate; unfold exec_vop, disc_res; cbv zeta; repeat case_match; simplify_eq; auto;
    repeat match goal with |- all_scoped (put_conn _ _ _) => apply put_scoped end; auto; try (apply kill_scoped; auto).
  - destruct scoped; [|discriminate]. apply add_scoped. auto.
  - destruct scoped; [|discriminate]. apply add_scoped, put_scoped. auto.
Qed.

Record I_neat (w : world) : Prop := INeat {
  n_fr : forall t st, w_thr w !! t = Some st -> AT fr_neat st;
  n_log : forall ev, ev ∈ w_log w -> match ev with EErased _ _ _ | EMoveSig _ _ => False | _ => True end;
  n_scoped : all_scoped (w_vars w);
  n_cov : forall c r, v_conns (w_vars w) !! c = Some r -> cn_live r = true -> exists t st, w_thr w !! t = Some st /\ EX (covers c) st;
  n_held : forall l, spec_flag (w_log w) l = true ->
    holds (w_vars w) l \/ (exists t st, w_thr w !! t = Some st /\ EX (flies l) st) \/ spec_alive (w_log w) l = false }.

Lemma flag_deadish L log l : deadish L -> spec_flag (L ++ log) l = spec_flag log l.
Proof. induction 1 as [|ev L [[? ->]|[? ->]] _ IH]; cbn; auto. Qed.
Lemma neat_log e w t st w' st' ev : trans e w t st w' st' -> AT fr_neat st -> ev ∈ w_log w' -> ev ∈ w_log w \/ match ev with EErased _ _ _ | EMoveSig _ _ => False | _ => True end.
Proof.
  intros Htr HN Hin. destruct Htr; wcbn_in Hin; autorewrite with wsimp in Hin; auto;
    try (apply elem_of_cons in Hin as [->|Hin]; [right; auto; cbn in HN; tauto|auto]; fail).
  - apply elem_of_cons in Hin as [->|Hin]; [|auto]. right. apply vop_ev in H as [(?&->&?)|[(?&->&?)|[(?&->&?)|[(?&->&?&?)|(?&->&?&?)]]]]; exact I.
  - apply elem_of_cons in Hin as [->|Hin]; [|auto]. right. apply vop_ev in H as [(?&->&?)|[(?&->&?)|[(?&->&?)|[(?&->&?&?)|(?&->&?&?)]]]]; exact I.
  - apply elem_of_cons in Hin as [->|Hin]; [right; exact I|]. destruct (cc_log w r) as [Hc|(l0 & i0 & _ & _ & _ & Hc)]; rewrite Hc in Hin; [auto|].
    apply elem_of_cons in Hin as [->|Hin]; [right; exact I|auto].
Qed.
(** What a step does to the connection variables. *)
Lemma vars_trans e ps w t st w' st' : reachable e ps w -> w_thr w !! t = Some st -> trans e w t st w' st' -> AT fr_neat st -> AT adj st -> all_scoped (w_vars w) ->
  all_scoped (w_vars w') /\
  (forall c r, v_conns (w_vars w') !! c = Some r -> cn_live r = true -> (exists r0, v_conns (w_vars w) !! c = Some r0 /\ cn_live r0 = true) \/ EX (covers c) st') /\
  (forall l, holds (w_vars w) l -> holds (w_vars w') l \/ EX (flies l) st' \/ spec_alive (w_log w) l = false).
Proof.
  intros Hr Ht Htr HN Ha Hsc.
  assert (Hsame : v_conns (w_vars w') = v_conns (w_vars w) -> all_scoped (w_vars w') /\
    (forall c r, v_conns (w_vars w') !! c = Some r -> cn_live r = true -> (exists r0, v_conns (w_vars w) !! c = Some r0 /\ cn_live r0 = true) \/ EX (covers c) st') /\
    (forall l, holds (w_vars w) l -> holds (w_vars w') l \/ EX (flies l) st' \/ spec_alive (w_log w) l = false)).
  { intros Hv. unfold all_scoped, holds. rewrite Hv. split; [exact Hsc|]. split; [eauto|auto]. }
  assert (Hvop : forall v k st0, st = FProg (Do (OVar v) k) :: st0 -> untidy_op (OVar v) = false /\ (makes_scoped (OVar v) = true -> forall c, frees c (k (OutId c)))).
  { intros v k st0 ->. cbn in HN. destruct HN as [HN _]. apply neat_inv in HN as (Hu & Hm & _). auto. }
  assert (Hok : forall v k st0 x o ef, st = FProg (Do (OVar v) k) :: st0 -> exec_vop w t v = VOk x o ef -> w_vars w' = x ->
     (ef = EfNone -> st' = FRet o :: FWait k :: st0) -> all_scoped (w_vars w') /\
    (forall c r, v_conns (w_vars w') !! c = Some r -> cn_live r = true -> (exists r0, v_conns (w_vars w) !! c = Some r0 /\ cn_live r0 = true) \/ EX (covers c) st') /\
    (forall l, holds (w_vars w) l -> holds (w_vars w') l \/ EX (flies l) st' \/ spec_alive (w_log w) l = false)).
  { intros v k st0 x o ef Hst H -> Hn. destruct (Hvop _ _ _ Hst) as [Hu Hm]. pose proof (vop_scoped w t v Hu Hsc) as Hs. rewrite H in Hs. split; [exact Hs|]. split.
    - intros c r Hc Hl. destruct (conns_new _ _ _ _ _ _ _ _ H Hu Hc Hl) as [(r0 & Hr0 & Hl0 & _)|(H1 & -> & _ & ->)]; [eauto|].
      right. rewrite Hn by reflexivity. left. split; [reflexivity|]. apply Hm. exact H1.
    - intros l Hl. left. eapply holds_new; eauto. }
  destruct Htr; try (apply Hsame; wcbn; autorewrite with wsimp; reflexivity).
  - eapply Hok; eauto.
  - eapply Hok; eauto; discriminate.
  - eapply Hok; eauto; discriminate.
  - eapply Hok; eauto; discriminate.
  - destruct (Hvop _ _ _ eq_refl) as [Hu _]. pose proof (vop_scoped w t v Hu Hsc) as Hs. rewrite H in Hs. split; [exact Hs|]. split.
    + intros c r Hc Hl. destruct (conns_do _ _ _ _ _ _ _ _ H Hu Hc Hl) as (r0 & Hr0 & Hl0 & _). eauto.
    + intros l0 Hl. destruct (holds_do _ _ _ _ _ _ _ H Hu Hl) as [->|Hh]; [|auto]. right. left. left. reflexivity.
  - destruct (Hvop _ _ _ eq_refl) as [Hu _]. pose proof (vop_scoped w t v Hu Hsc) as Hs. rewrite H in Hs. split; [exact Hs|]. split.
    + intros c r Hc Hl. destruct (conns_do _ _ _ _ _ _ _ _ H Hu Hc Hl) as (r0 & Hr0 & Hl0 & _). eauto.
    + intros l0 Hl. destruct (holds_do _ _ _ _ _ _ _ H Hu Hl) as [->|Hh]; [|auto]. right. right. rewrite <- (proj1 (I_alive_inv _ _ _ Hr)). exact H0.
  - apply Hsame. wcbn. destruct r; cbn; reflexivity.
  - apply Hsame. wcbn. unfold clear_conn. destruct r; cbn; repeat case_match; reflexivity.
  - cbn in HN, Ha. destruct HN as (_ & (-> & HN) & _). destruct Ha as (_ & Ha & _). destruct st as [|[] st]; try discriminate.
    split; [apply add_scoped; exact Hsc|]. split.
    + intros c r Hc Hl. cbn in Hc. apply snoc_lookup in Hc as [[Hc _]|[-> ->]]; [eauto|]. right. left. split; [reflexivity|apply HN].
    + intros l0 (c & r & Hc & Hl & Hs). left. exists c, r. split; [cbn; apply lookup_app_l_Some; exact Hc|auto].
  - exfalso. cbn in HN. tauto.
  - exfalso. cbn in HN. tauto.
Qed.

Section inv.
Context (e : env) (ps : list prog).
Hypothesis He : neat_env e.
Hypothesis Hps : Forall neat ps.

Lemma I_neat_inv w : reachable e ps w -> I_neat w.
Proof.
  apply reach_ind.
  - constructor.
    + intros t st Ht. cbn in Ht. rewrite list_lookup_fmap in Ht. destruct (ps !! t) eqn:Hp; cbn in Ht; simplify_eq. cbn.
      split; [|exact I]. rewrite Forall_lookup in Hps. eauto.
    + intros ev H. inversion H.
    + intros c r H. discriminate.
    + intros c r H. discriminate.
    + intros l H. discriminate.
  - clear w. intros w t st w' st' Hr [Hfr Hlog Hsc Hcov Hheld] Ht Htr Hr'.
    pose proof (Hfr _ _ Ht) as HN. destruct (I_adj_inv _ _ _ Hr _ _ Ht) as [Ha _].
    destruct (vars_trans _ _ _ _ _ _ _ Hr Ht Htr HN Ha Hsc) as (V1 & V2 & V3).
    destruct (reap_spec e w w' t st') as (D & L & HD & HL & Hreap & HDe & _).
    assert (HDn : AT fr_neat (D ++ st')).
    { assert (HA : AT fr_neat st') by (eapply neat_trans; eauto). rewrite HDe. clear -HA He. generalize (dead w (mid w' t st')). generalize (mid w' t st'). intros w2 ds.
      induction ds as [|d ds IH]; cbn; [exact HA|]. rewrite <- app_assoc. unfold dtor_frames at 1.
      destruct (dtor_prog e w2 d) as [p|] eqn:Hp; [|exact IH].
      cbn. split; [|split; [exact I|exact IH]]. destruct He as (_ & _ & _ & Hd & Ho). destruct d as [l|o]; cbn in Hp; [|eauto]. destruct (w_slots w2 !! l); [eauto|discriminate]. }
    assert (Hthr : forall t0 x, t0 <> t -> w_thr w !! t0 = Some x -> w_thr (reap e w w' t st') !! t0 = Some x).
    { intros t0 x Hn H0. rewrite Hreap. wcbn. rewrite (trans_thr _ _ _ _ _ _ Htr), list_lookup_insert_ne by congruence. auto. }
    assert (Hme : w_thr (reap e w w' t st') !! t = Some (D ++ st')).
    { rewrite Hreap. wcbn. apply list_lookup_insert. rewrite (trans_thr _ _ _ _ _ _ Htr). eapply lookup_lt_Some; eauto. }
    assert (Hlg : w_log (reap e w w' t st') = L ++ w_log w') by (rewrite Hreap; reflexivity).
    assert (Hva : w_vars (reap e w w' t st') = w_vars w') by (rewrite Hreap; reflexivity).
    constructor.
    + intros t0 x Hx. destruct (decide (t0 = t)) as [->|Hn]; [rewrite Hme in Hx; injection Hx as <-; exact HDn|].
      rewrite Hreap in Hx. wcbn_in Hx. rewrite (trans_thr _ _ _ _ _ _ Htr), list_lookup_insert_ne in Hx by congruence. eauto.
    + intros ev Hin. rewrite Hlg in Hin. apply elem_of_app in Hin as [Hin|Hin].
      * unfold deadish in HL. rewrite Forall_forall in HL. destruct (HL _ Hin) as [[? ->]|[? ->]]; exact I.
      * destruct (neat_log _ _ _ _ _ _ _ Htr HN Hin) as [H|H]; [exact (Hlog _ H)|exact H].
    + rewrite Hva. exact V1.
    + rewrite Hva. intros c r Hc Hl. destruct (V2 _ _ Hc Hl) as [(r0 & Hr0 & Hl0)|HE].
      * destruct (Hcov _ _ Hr0 Hl0) as (t0 & st0 & H0 & HE). destruct (decide (t0 = t)) as [->|Hn]; [|eauto].
        rewrite Ht in H0. injection H0 as <-. exists t, (D ++ st'). split; [exact Hme|]. apply EX_app. eapply covers_trans; [exact Htr|exact HN|exists r; auto|exact HE].
      * exists t, (D ++ st'). split; [exact Hme|]. apply EX_app. exact HE.
    + intros l Hf. rewrite Hlg, Hva in *. rewrite flag_deadish in Hf by exact HL.
      assert (Hfly : EX (flies l) st' -> holds (w_vars w') l \/ (exists t0 st0, w_thr (reap e w w' t st') !! t0 = Some st0 /\ EX (flies l) st0) \/ spec_alive (L ++ w_log w') l = false).
      { intros HE. right. left. exists t, (D ++ st'). split; [exact Hme|]. apply EX_app. exact HE. }
      destruct (flag_new _ _ _ _ _ _ _ Htr Ha Hf) as [Hf0|HE]; [|auto].
      assert (Hdead : spec_alive (w_log w) l = false -> spec_alive (L ++ w_log w') l = false).
      { intros Hd. destruct (trans_log_app _ _ _ _ _ _ Htr) as [new Hnew]. rewrite Hnew, app_assoc. apply dead_app; [|destruct (flag_conn0 _ _ Hf0) as (i & Hi); eapply known_conn0; eauto|exact Hd].
        rewrite <- app_assoc, <- Hnew, <- Hlg. eapply wf_log_reach; eauto. }
      destruct (Hheld _ Hf0) as [Hh|[(t0 & st0 & H0 & HE)|Hd]].
      * destruct (V3 _ Hh) as [H|[H|H]]; auto.
      * destruct (decide (t0 = t)) as [->|Hn]; [|right; left; eauto]. rewrite Ht in H0. injection H0 as <-.
        destruct (flies_trans _ _ _ _ _ _ _ _ Hr Ht Htr Hf HE) as [H|H]; auto.
      * auto.
Qed.

Lemma EX_rest P w : all_finished w -> (forall o, ~ P (FRet o) []) -> ~ exists t st, w_thr w !! t = Some st /\ EX P st.
Proof. intros Hf Hp (t & st & Ht & HE). destruct (Hf _ _ Ht) as (o & Ho). rewrite Ht in Ho. injection Ho as ->. cbn in HE. destruct HE as [HE|[]]. exact (Hp _ HE). Qed.

Theorem neat_conns w c r : reachable e ps w -> all_finished w -> v_conns (w_vars w) !! c = Some r -> cn_live r = false /\ cn_scoped r = true.
Proof.
  intros Hr Hf Hc. pose proof (I_neat_inv w Hr) as HI. split; [|eapply n_scoped; eauto]. apply not_true_is_false. intros Hl.
  apply (EX_rest (covers c) w Hf); [|eapply n_cov; eauto]. intros [] H; try contradiction H. destruct H as [_ []].
Qed.
Theorem neat_flags w l : reachable e ps w -> all_finished w -> spec_flag (w_log w) l = true -> spec_alive (w_log w) l = false.
Proof.
  intros Hr Hf Hl. pose proof (I_neat_inv w Hr) as HI. destruct (n_held _ HI _ Hl) as [(c & r & Hc & Hlv & _)|[H|H]]; [| |exact H].
  - destruct (neat_conns w c r Hr Hf Hc) as [H _]. congruence.
  - exfalso. apply (EX_rest (flies l) w Hf); [|exact H]. intros [] Hx; try contradiction Hx. destruct Hx as [_ []].
Qed.
Theorem neat_lists w s l : reachable e ps w -> all_finished w -> signal_lives w s -> l ∈ slots_of w s -> born_disconnected (w_log w) l \/ died_in_call (w_log w) l.
Proof.
  intros Hr Hf (r & Hs & Ha) Hl. destruct (listed_connected e ps w s l Hr) as [H|H]; auto.
  - intros t st Ht Hin. destruct (Hf _ _ Ht) as (o & Ho). rewrite Ht in Ho. injection Ho as ->. apply elem_of_list_singleton in Hin. discriminate.
  - exfalso. assert (Hd : spec_alive (w_log w) l = true); [|rewrite (neat_flags w l Hr Hf H) in Hd; discriminate].
    apply (alive_owned e ps w l Hr). left. exists s. split; [exact Hl|]. intros Hin. destruct (I_sig_inv _ _ _ Hr) as (HS & _). apply (HS _ _ Hs) in Hin. congruence.
Qed.
End inv.

(** ** Clients that connect functions only *)
Lemma fun_bindp p f : functions p -> (forall o, functions (f o)) -> functions (bindp p f).
Proof. intros Hp Hf. induction Hp; cbn; [auto|]. constructor; auto. Qed.
Lemma fun_olv n p a : functions (olv n p a).
Proof. revert p a. induction n as [|n IH]; intros p a; cbn; constructor; try exact I. intros r. repeat case_match; try apply IH; constructor. Qed.
Definition fun_impl (i : impl) : Prop := im_conn i = true /\ c_kind (im_c i) <> KTracked.
Definition fr_fun (f : frame) (r : list frame) : Prop :=
  match f with
  | FProg p => functions p
  | FWait k | FDeref k _ _ => forall x, functions (k x)
  | FLock _ (KAdd i) | FWrite _ (KAdd i) | FBody _ _ (KAdd i) => fun_impl i
  | _ => True
  end.
Section funs.
Context (e : env) (ps : list prog).
Hypothesis He : functions_env e.
Hypothesis Hps : Forall functions ps.
Lemma fun_try b x y : functions (try_equals e b x y).
Proof. unfold try_equals. destruct (e_cmp e b); [apply He|constructor]. Qed.
Lemma fun_slot_eq a b : functions (slot_eq e a b).
Proof.
  unfold slot_eq, impl_eq. repeat case_match; try constructor; try apply fun_try; apply fun_bindp; try apply fun_try; intros o; repeat case_match; try constructor; apply fun_try.
Qed.
Lemma fun_comb c n : functions (combiner e c n).
Proof. destruct c; cbn; [apply He|apply fun_olv]. Qed.
Lemma fun_inv o k : functions (Do o k) -> function_op o /\ forall r, functions (k r).
Proof. inversion 1; auto. Qed.
Lemma fun_trans w t st w' st' : trans e w t st w' st' -> AT fr_fun st -> AT fr_fun st'.
Proof.
  intros Htr HA. destruct Htr; cbn [AT] in HA |- *; repeat match goal with H : _ /\ _ |- _ => destruct H end; try assumption;
    repeat match goal with H : fr_fun (FProg (Do _ _)) _ |- _ => let H1 := fresh "Hd" in apply fun_inv in H as (H1 & ?) end;
    try match goal with H : exec_vop _ _ _ = VDo _ _ _ |- _ => apply vop_after' in H as [-> |[(? & ? & ->)|[(? & ? & ->)| ->]]]; cbn [app AT] end;
    try match goal with H : begins _ _ _ _ _ |- _ => destruct H; cbn [app AT] end;
    cbn in *; repeat match goal with |- _ /\ _ => split end; auto; try contradiction; try discriminate;
    try apply fun_slot_eq; try apply fun_comb; try apply He; try (destruct k; auto; fail).
  split; [reflexivity|exact Hd].
Qed.
Lemma fun_frames w : reachable e ps w -> forall t st, w_thr w !! t = Some st -> AT fr_fun st.
Proof.
  apply (reach_ind e ps (fun w => forall t st, w_thr w !! t = Some st -> AT fr_fun st)).
  - intros t st Ht. cbn in Ht. rewrite list_lookup_fmap in Ht. destruct (ps !! t) eqn:Hp; cbn in Ht; simplify_eq. cbn.
    split; [|exact I]. rewrite Forall_lookup in Hps. eauto.
  - clear w. intros w t st w' st' Hr HI Ht Htr _ t0 x Hx.
    destruct (reap_spec e w w' t st') as (D & L & HD & HL & Hreap & HDe & _). rewrite Hreap in Hx. wcbn_in Hx. rewrite (trans_thr _ _ _ _ _ _ Htr) in Hx.
    destruct (thr_upd _ _ _ _ _ _ Ht Hx) as [[-> ->]|[Hn Hx']]; [|eauto].
    assert (HA : AT fr_fun st') by (eapply fun_trans; eauto). rewrite HDe. clear -HA He. generalize (dead w (mid w' t st')). generalize (mid w' t st'). intros w2 ds.
    induction ds as [|d ds IH]; cbn; [exact HA|]. rewrite <- app_assoc. unfold dtor_frames at 1.
    destruct (dtor_prog e w2 d) as [p|] eqn:Hp; [|exact IH].
    cbn. split; [|split; [exact I|exact IH]]. destruct He as (_ & _ & _ & Hd & Ho). destruct d as [l|o]; cbn in Hp; [|eauto]. destruct (w_slots w2 !! l); [eauto|discriminate].
Qed.
Lemma fun_conns w : reachable e ps w -> log_all (fun ev pre => match ev with EConn t s l i => fun_impl i | _ => True end) (w_log w).
Proof.
  apply log_all_hist; [intros []; cbn; auto; discriminate|].
  clear w. intros w t st w' st' ev pre Hr Ht Htr Hlg. destruct ev; auto. pose proof (fun_frames w Hr _ _ Ht) as HF. logs_inv Htr Hlg.
  cbn in HF. destruct HF as [HF _]. exact HF.
Qed.
Lemma fun_never w l : reachable e ps w -> ~ born_disconnected (w_log w) l /\ ~ died_in_call (w_log w) l.
Proof.
  intros Hr. pose proof (fun_conns w Hr) as HF.
  assert (Hi : forall p i, (exists a, w_log w = a ++ p) -> spec_conn0 p l = Some i -> fun_impl i).
  { intros p i (a & Hp) Hc. apply conn0_elem in Hc as (t & s & Hin). apply elem_of_list_split in Hin as (b & c & Hb). subst p.
    rewrite app_assoc in Hp. exact (HF _ _ _ Hp). }
  split.
  - intros (i & Hc & Hb). destruct (Hi (w_log w) i) as [H _]; [exists []; reflexivity|exact Hc|]. congruence.
  - intros (a & t & eid & start & b & Hl & _ & n & Hn & o & Ho & _). unfold spec_tracks in Ho. destruct (spec_conn0 (older n b) l) as [i|] eqn:Hc; [|discriminate].
    destruct (Hi (older n b) i) as [_ H]; [|exact Hc|destruct (c_kind (im_c i)); [discriminate|discriminate|congruence]].
    destruct (older_suffix n b) as [new Hb]. rewrite Hl. exists (a ++ ESkip t (RSlot l) eid start :: EFlag l :: new). rewrite <- app_assoc. cbn. rewrite <- Hb. reflexivity.
Qed.
Theorem fun_at_rest w s l : reachable e ps w -> all_finished w -> (forall t s l, EErased t s l ∉ w_log w) -> (forall s1 s2, EMoveSig s1 s2 ∉ w_log w) ->
  l ∈ slots_of w s <-> spec_home (w_log w) l = Some s /\ spec_flag (w_log w) l = true.
Proof.
  intros Hr Hf Hne Hnm. split.
  - intros Hl. destruct (listed_connected e ps w s l Hr) as [H|[H|H]]; auto.
    + intros t st Ht Hin. destruct (Hf _ _ Ht) as (o & Ho). rewrite Ht in Ho. injection Ho as ->. apply elem_of_list_singleton in Hin. discriminate.
    + split; [|exact H]. destruct (connected_listed e ps w l Hr Hne H) as (s0 & Hs0 & s' & Hl' & [-> |[s2 Hm]]); [|destruct (Hnm _ _ Hm)].
      change slots_of with cur in Hl, Hl'. destruct (I_list_inv _ _ _ Hr) as (_ & _ & Hd & _). rewrite <- (Hd _ _ _ Hl' Hl). exact Hs0.
    + destruct (proj1 (fun_never w l Hr) H).
    + destruct (proj2 (fun_never w l Hr) H).
  - intros [Hh H]. destruct (connected_listed e ps w l Hr Hne H) as (s0 & Hs0 & s' & Hl' & [-> |[s2 Hm]]); [|destruct (Hnm _ _ Hm)]. congruence.
Qed.
End funs.

Theorem neat_empty e ps w s : neat_env e -> functions_env e -> Forall neat ps -> Forall functions ps -> reachable e ps w -> all_finished w -> signal_lives w s ->
  slots_of w s = [].
Proof.
  intros H1 H2 H3 H4 Hr Hf Hs. destruct (slots_of w s) as [|l xs] eqn:E; [reflexivity|]. exfalso.
  assert (Hl : l ∈ slots_of w s) by (rewrite E; left). destruct (fun_never e ps H2 H4 w l Hr) as [Ha Hb].
  destruct (neat_lists e ps H1 H3 w s l Hr Hf Hs Hl); auto.
Qed.
