(** * Tidy clients never meet undefined behaviour: the invariant *)
From Verif Require Import Reach InvSlot InvDeath InvRem InvUse InvFault InvSig InvOp.
From Verif Require Export TidyVop.

(** ** Slots stay in the lists of the signal they were connected to *)
Section home.
Context (e : env) (ps : list prog) (w : world).
Hypothesis Hr : reachable e ps w.
Hypothesis Hm : forall s1 s2, EMoveSig s1 s2 ∉ w_log w.

Lemma home_conn l r t s i : w_slots w !! l = Some r -> EConn t s l i ∈ w_log w -> sl_sig r = s.
Proof.
  intros Hl Hin. destruct (I_fields_inv _ _ _ Hr _ _ Hl) as (_ & _ & _ & _ & Hh).
  rewrite (elem_home _ _ _ _ _ (wf_log_reach _ _ _ Hr) Hin) in Hh. congruence.
Qed.
Lemma nomove_list log : log_all (fun ev pre => is_dead ev = false -> ev_lists ev pre) log -> (forall s1 s2, EMoveSig s1 s2 ∉ log) ->
  forall s l, l ∈ spec_list log s -> exists t i, EConn t s l i ∈ log.
Proof.
  intros HL Hn. induction log as [|ev log IH]; intros s l Hl; [inversion Hl|].
  apply log_all_cons in HL as [HL1 HL]. specialize (IH HL (fun s1 s2 H => Hn s1 s2 (elem_of_list_further _ _ _ H))).
  assert (Hi : l ∈ spec_list log s -> exists t i, EConn t s l i ∈ ev :: log).
  { intros H. destruct (IH _ _ H) as (t & i & H'). exists t, i. apply elem_of_list_further. exact H'. }
  assert (Hswap : forall x, NoDup (spec_list log s) -> l ∈ swap_remove x (spec_list log s) -> exists t i, EConn t s l i ∈ ev :: log).
  { intros x Hd H. apply Hi. eapply swap_remove_sub; eauto. }
  destruct ev; cbn in Hl; auto; try (exfalso; eapply Hn; apply elem_of_list_here);
    try (destruct (decide (_ = s)) as [->|]; [|auto]; specialize (HL1 eq_refl); eapply Hswap; [apply HL1|exact Hl]).
  destruct (decide (_ = s)) as [->|]; [|auto]. apply elem_of_app in Hl as [Hl|Hl]; [auto|].
  apply elem_of_list_singleton in Hl as ->. do 2 eexists. apply elem_of_list_here.
Qed.
Lemma list_home s l r : l ∈ cur w s -> w_slots w !! l = Some r -> sl_sig r = s.
Proof.
  intros Hl Hs. destruct (I_list_inv _ _ _ Hr) as (_ & _ & _ & Hc). rewrite Hc in Hl.
  destruct (nomove_list _ (lists_ok _ _ _ Hr) Hm _ _ Hl) as (t & i & Hin). eapply home_conn; eauto.
Qed.
Lemma emit_home t st s eid v a l r : w_thr w !! t = Some st -> FEmit s eid v a ∈ st -> l ∈ vec_of w v -> w_slots w !! l = Some r -> sl_sig r = s.
Proof.
  intros Ht Hf Hl Hs. destruct (I_emitvec_inv _ _ _ Hr _ _ _ _ _ _ Ht Hf) as (a0 & c & post & pre & Hlog & _).
  pose proof (emit_list _ _ _ Hr) as HE. specialize (HE _ _ _ Hlog). cbn in HE. destruct HE as [HE _]. rewrite HE in Hl.
  pose proof (lists_ok _ _ _ Hr) as HL. rewrite Hlog in HL. apply log_all_pre in HL.
  assert (Hn : forall s1 s2, EMoveSig s1 s2 ∉ pre).
  { intros s1 s2 H. apply (Hm s1 s2). rewrite Hlog. apply elem_of_app. right. apply elem_of_list_further. exact H. }
  destruct (nomove_list _ HL Hn _ _ Hl) as (t' & i & Hin). eapply home_conn; [exact Hs|]. rewrite Hlog. apply elem_of_app. right. apply elem_of_list_further. exact Hin.
Qed.
Lemma sigs_there_reach : sigs_there w.
Proof. intros l r Hl. destruct (I_ex_inv _ _ _ Hr) as [_ H]. rewrite Forall_lookup in H. exact (H _ _ Hl). Qed.
End home.

Lemma same_slots_app e ps w w' new : reachable e ps w -> reachable e ps w' -> w_log w' = new ++ w_log w -> length (w_slots w) <= length (w_slots w') -> same_slots w w'.
Proof.
  intros Hr Hr' Hl Hn l r H. assert (Hl' : l < length (w_slots w')) by (apply lookup_lt_Some in H; lia).
  apply lookup_lt_is_Some in Hl' as [r' H']. exists r'. split; [exact H'|].
  destruct (I_fields_inv _ _ _ Hr _ _ H) as ((i & Hi & Ei) & _ & _ & _ & Hh). destruct (I_fields_inv _ _ _ Hr' _ _ H') as ((i' & Hi' & Ei') & _ & _ & _ & Hh').
  pose proof (wf_log_reach _ _ _ Hr') as Hw. rewrite Hl in *.
  rewrite (conn0_app _ _ _ _ Hw Hi) in Hi'. injection Hi' as <-.
  rewrite (home_app new (w_log w) l (sl_sig r) Hw) in Hh'; [|eapply known_conn0; eauto|exact Hh]. split; congruence.
Qed.

Section tidy.
Context (e : env) (G : list thing) (caps : callable -> list thing) (ps : list prog).
Notation tidy := (tidy e G caps).
Notation owners := (thing -> option (tid * nat)).
Notation stk := (stk e G caps).
Notation fine := (fine e G caps).
Notation caps_ok := (caps_ok caps).

(** ** What keeps a slot or a mutex *)
Lemma fine_frames O w t :
  (forall st a, stk O w t st a -> forall x f r, st = x ++ f :: r ->
     (forall l, frame_pins l f = true -> pinned O w t (length r) l) /\
     (forall s eid v a, f = FEmit s eid v a -> usable O w t (length r) s) /\ (forall s, in_section s f -> usable O w t (length r) s)) /\
  (forall st, fine O w t st -> forall x f r, st = x ++ f :: r ->
     (forall l, frame_pins l f = true -> pinned O w t (length r) l) /\
     (forall s eid v a, f = FEmit s eid v a -> usable O w t (length r) s) /\ (forall s, in_section s f -> usable O w t (length r) s)).
Proof.
  apply stk_fine_ind; cbv beta; intros;
    match goal with H : _ = ?x ++ _ :: _ |- _ => destruct x as [|? ?]; [try discriminate H|try discriminate H]; cbn [app] in H; simplify_eq end; eauto.
  all: split; [|split]; cbn; try discriminate; try tauto; try (intros; subst; assumption).
  all: try (intros l0 Hl0; apply bool_decide_eq_true in Hl0; subst; assumption).
  all: intros; simplify_eq; assumption.
Qed.

(** ** The invariant *)
Record world_ok (O : owners) (w : world) : Prop := World_ok {
  j_G : forall th, th ∈ G -> lives w th /\ O (key th) = None;
  j_slots : forall l r, w_slots w !! l = Some r -> caps_ok O w (im_c (sl_impl r));
  j_us : forall u r i, v_us (w_vars w) !! u = Some r -> us_impl r = Some i -> caps_ok O w (im_c i);
  j_conns : forall c r l, v_conns (w_vars w) !! c = Some r -> cn_slot r = Some l -> slot_of O w (O (TConn c)) l;
  j_blks : forall b r l, v_blks (w_vars w) !! b = Some r -> bk_slot r = Some l -> slot_of O w (O (TBlk b)) l }.
Record J (O : owners) (w : world) : Prop := Inv {
  j_reach : reachable e ps w;
  j_moved : forall s1 s2, EMoveSig s1 s2 ∉ w_log w;
  j_world : world_ok O w;
  j_alive : forall l r, slot_alive w l = true -> w_slots w !! l = Some r -> signal_lives w (sl_sig r);
  j_thr : forall t st, w_thr w !! t = Some st -> fine O w t st }.

(** The parts that only threads and events differ in are the same. *)
Lemma kept_eq O w w' t h : w_sigs w' = w_sigs w -> w_vars w' = w_vars w -> kept O w w' t h.
Proof. intros Hs Hv th Hl _. destruct th; cbn in *; unfold signal_lives, conn_lives, blk_lives, slot_lives, slot_null in *; rewrite ?Hs, ?Hv; exact Hl. Qed.
Lemma fine_eq O w w' t st : w_sigs w' = w_sigs w -> w_vars w' = w_vars w -> w_slots w' = w_slots w -> w_vecs w' = w_vecs w -> sigs_there w ->
  fine O w t st -> fine O w' t st.
Proof.
  intros Hs Hv Hl Hc Ht Hf. apply (proj2 (mono e G caps O O w w' t t (length st) (fun k _ => eq_refl) (kept_eq O w w' t _ Hs Hv)
    ltac:(intros l r H; exists r; rewrite Hl; auto) Ht ltac:(intros k; destruct k; cbn; rewrite ?Hs, ?Hv; auto))); [exact Hf|auto|].
  intros s eid v a _. unfold vec_of. rewrite Hc. reflexivity.
Qed.
Lemma world_eq O w w' : w_sigs w' = w_sigs w -> w_vars w' = w_vars w -> w_slots w' = w_slots w -> world_ok O w -> world_ok O w'.
Proof.
  intros Hs Hv Hl [H1 H2 H3 H4 H5].
  assert (HL : forall th, lives w th -> lives w' th).
  { intros th H. eapply (kept_eq (fun _ => None) w w' 0 0 Hs Hv th H). discriminate. }
  constructor.
  - intros th H. destruct (H1 th H). auto.
  - intros l r H th Hth. rewrite Hl in H. destruct (H2 l r H th Hth). auto.
  - intros u r i Hu Hi th Hth. rewrite Hv in Hu. destruct (H3 u r i Hu Hi th Hth). auto.
  - intros c r l Hc Hi. rewrite Hv in Hc. destruct (H4 c r l Hc Hi) as (rl & Hrl & Ho). exists rl. rewrite Hl. auto.
  - intros c r l Hc Hi. rewrite Hv in Hc. destruct (H5 c r l Hc Hi) as (rl & Hrl & Ho). exists rl. rewrite Hl. auto.
Qed.

(** ** One step *)
Definition thereb (w : world) (k : thing) : bool :=
  match k with
  | TOwn s => s <? length (w_sigs w)
  | TConn c => c <? length (v_conns (w_vars w))
  | TBlk b => b <? length (v_blks (w_vars w))
  | TSlot u => u <? length (v_us (w_vars w))
  | TObj x => x <? length (v_objs (w_vars w))
  | TLoc a => a <? length (v_store (w_vars w))
  | _ => false
  end.
Lemma thereb_iff w k : thereb w k = true <-> there w k.
Proof. destruct k; unfold thereb, there; try (rewrite Nat.ltb_lt; reflexivity); split; (discriminate || tauto). Qed.
(** What is new belongs to [x]; locations are shared. *)
Definition give (O : owners) (w : world) (x : option (tid * nat)) : owners := fun k =>
  if thereb w k then O k else match k with TLoc _ => None | _ => x end.
Lemma give_agree O w x : agree O (give O w x) w.
Proof. intros k Hk. unfold give. rewrite (proj2 (thereb_iff w k) Hk). reflexivity. Qed.
Lemma give_new O w x k : ~ there w k -> give O w x k = match k with TLoc _ => None | _ => x end.
Proof. intros Hk. unfold give. destruct (thereb w k) eqn:E; [|reflexivity]. apply thereb_iff in E. contradiction. Qed.

Section carry.
Context (O O' : owners) (w w1 : world) (t : tid) (h : nat).
Hypothesis HA : agree O O' w.
Hypothesis HK : kept O w w1 t h.
Hypothesis HS : same_slots w w1.
Hypothesis HT : sigs_there w.
Hypothesis HM : forall k, there w k -> there w1 k.
Lemma world_mono : world_ok O w ->
  (forall l r, length (w_slots w) <= l -> w_slots w1 !! l = Some r -> caps_ok O w (im_c (sl_impl r))) ->
  (forall u r i, v_us (w_vars w1) !! u = Some r -> us_impl r = Some i -> caps_ok O w (im_c i)) ->
  (forall c r l, v_conns (w_vars w1) !! c = Some r -> cn_slot r = Some l -> slot_of O' w1 (O' (TConn c)) l) ->
  (forall b r l, v_blks (w_vars w1) !! b = Some r -> bk_slot r = Some l -> slot_of O' w1 (O' (TBlk b)) l) ->
  world_ok O' w1.
Proof.
  intros [H1 H2 H3 H4 H5] Hn Hu Hc Hb.
  assert (Hcap : forall c, caps_ok O w c -> caps_ok O' w1 c) by (intros c; eapply caps_mono; eauto).
  constructor; auto.
  - intros th Hth. destruct (H1 th Hth) as [Hl Ho]. exact (shared_mono O O' w w1 t h HA HK th Hl Ho).
  - intros l r Hl. destruct (decide (l < length (w_slots w))) as [Hlt|Hge].
    + apply lookup_lt_is_Some in Hlt as [r0 Hr0]. destruct (HS l r0 Hr0) as (r' & Hr' & _ & Hcc). rewrite Hl in Hr'. injection Hr' as <-. rewrite Hcc. eauto.
    + apply Hcap. eapply Hn; [|exact Hl]. lia.
  - intros u r i Hr Hi. eauto.
Qed.
End carry.

Lemma loses_own O w t h own v th : vop_ok G caps own v -> wf O w t h own -> loses v th -> O (key th) = Some (t, h).
Proof.
  intros Hok Hw Hlo.
  assert (Hh : forall th', has own th' -> linear th' = true -> key th' = th' -> O th' = Some (t, h)).
  { intros th' [H|(u & -> & H)] Hli Hk.
    - destruct (Hw _ H) as [_ Ho]. rewrite Hli, Hk in Ho. exact Ho.
    - destruct (Hw _ H) as [_ Ho]. exact Ho. }
  destruct v; cbn in Hlo, Hok; try contradiction; try (subst th; cbn; apply Hh; [assumption|reflexivity|reflexivity]).
  - destruct Hlo as [_ [->| ->]]; cbn; apply Hh; tauto.
  - destruct Hlo as [->| ->]; cbn; apply Hh; tauto.
Qed.
Lemma knows_lives O w t h own th : world_ok O w -> wf O w t h own -> knows G own th -> lives w th /\ (O (key th) = None \/ O (key th) = Some (t, h)).
Proof.
  intros Hwo Hw. induction 1 as [th H|th H|u _ IH|s H].
  - destruct (j_G _ _ Hwo _ H). auto.
  - destruct (Hw _ H) as [Hl Ho]. destruct (linear th); auto.
  - destruct IH as [Hl Ho]. split; [|exact Ho]. destruct Hl as [Hl _]. exact Hl.
  - destruct (Hw _ H) as [Hl Ho]. split; [exact Hl|]. right. exact Ho.
Qed.
Lemma has_owned O w t h own th : wf O w t h own -> has own th -> linear th = true -> key th = th -> lives w th /\ O th = Some (t, h).
Proof.
  intros Hw [H|(u & -> & H)] Hl Hk.
  - destruct (Hw _ H) as [H1 Ho]. rewrite Hl, Hk in Ho. auto.
  - destruct (Hw _ H) as [H1 Ho]. cbn in *. tauto.
Qed.
Lemma lends_ok O w t h own th : world_ok O w -> wf O w t h own -> lends G own th -> linear th = false -> lives w th /\ O (key th) = None.
Proof.
  intros Hwo Hw [H|[H|(u & -> & _)]] Hl; [| |discriminate].
  - exact (j_G _ _ Hwo _ H).
  - destruct (Hw _ H) as [H1 Ho]. rewrite Hl in Ho. auto.
Qed.
Lemma slot_of_less O w x y l : slot_of O w x l -> x = None \/ x = y -> slot_of O w y l.
Proof. intros (r & Hr & Ho) Hx. exists r. split; [exact Hr|]. destruct Hx as [->| ->]; tauto. Qed.
Lemma slot_of_pinned O w t h p l : slot_of O w (Some (t, h)) l -> h < p -> pinned O w t p l.
Proof. intros (r & Hr & Ho) Hp. exists r. split; [exact Hr|]. destruct Ho as [Ho|Ho]; [left; exact Ho|right; eauto]. Qed.
Lemma vop_there w t v x : vars_after (exec_vop w t v) = Some x ->
  length (v_conns (w_vars w)) <= length (v_conns x) /\ length (v_blks (w_vars w)) <= length (v_blks x) /\ length (v_us (w_vars w)) <= length (v_us x) /\
  length (v_objs (w_vars w)) <= length (v_objs x) /\ length (v_store (w_vars w)) <= length (v_store x).
Proof.
  intros H. unfold exec_vop in H. cbv zeta in H.
  destruct v; unfold disc_res in H; repeat (dm H; try discriminate); cbn [vars_after] in H; simplify_eq;
    cbn [v_conns v_blks v_us v_objs v_store add_conn add_blk add_us put_conn put_blk put_us kill_conn kill_blk kill_us
      set_conns set_blks set_us set_objs set_store]; rewrite ?app_length, ?alter_length, ?insert_length; cbn; rewrite ?alter_length; repeat split; lia.
Qed.
End tidy.
