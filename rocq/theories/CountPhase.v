(** * Connecting and emitting in a loop: where a thread is *)
From Verif Require Import Reach InvUse InvFault InvFields InvRem InvSig InvEmit Witness TidyCase TidySafe AloneProof AloneTest TidyExamples.
From Verif Require Export QuietNeat.

(** What is left of the loop after connecting, and after an emission. *)
Definition KC (m r : nat) (x : out) : prog := match x with OutId c => emit_then m c (connect_invoke r m) | _ => Ret x end.
Definition KE (j : nat) (c : cid) (q : prog) (x : out) : prog :=
  match x with OutExn _ => Do (OVar (VDestroyConn c)) (fun _ => Ret x) | _ => emit_then j c q end.
Notation the_args := [ARef 0; AVal 1].

(** The default combiner over slots that do not throw. *)
Inductive fine : prog -> Prop :=
| Fine_ret z : fine (Ret (OutOpt z))
| Fine_do pos k : (forall z, fine (k (OutOpt z))) -> fine (Do (ODeref pos) k).
Lemma olv_fine n pos acc : fine (olv n pos acc).
Proof. revert pos acc. induction n as [|n IH]; intros pos acc; cbn; [constructor|]. constructor. intros [z|]; apply IH. Qed.

Definition live_stage (g : stage) : Prop := g <> SDead /\ g <> SPin.
Inductive inner (eid : nat) : list frame -> Prop :=
| In_prog p : fine p -> inner eid [FProg p]
| In_ret z : inner eid [FRet (OutOpt z)]
| In_slot l g args pin start k pos : live_stage g -> (forall z, fine (k (OutOpt z))) -> inner eid [FSlot (RSlot l) g args pin (Some eid) start; FDeref k pos l]
| In_body l args pin start k pos : (forall z, fine (k (OutOpt z))) -> inner eid [FProg (Ret OutUnit); FSlot (RSlot l) SRun args pin (Some eid) start; FDeref k pos l]
| In_bret l args pin start k pos : (forall z, fine (k (OutOpt z))) -> inner eid [FRet OutUnit; FSlot (RSlot l) SRun args pin (Some eid) start; FDeref k pos l]
| In_call l z args k pos : (forall z, fine (k (OutOpt z))) -> inner eid [FRet (OutCall (OutOpt z) args); FDeref k pos l].

(** What a thread holds. *)
Inductive pos_t :=
| PIdle                                        (* nothing *)
| PHas (l : lid) (c : option cid)              (* slot [l], connection [c] once it is made *)
| PIn (eid : nat) (l : lid) (c : cid)          (* the same, inside emission [eid] *)
| PDisc (l : lid)                              (* about to clear the flag of [l] *)
| PRem (l : lid).                              (* about to take [l] out of the list *)
Definition slot_of (p : pos_t) : option lid :=
  match p with PIdle => None | PHas l _ | PIn _ l _ | PDisc l | PRem l => Some l end.

Definition adding : crit := KAdd (new_impl (fn 1)).
(** [phase m st p d]: the stack of a thread that runs the loop with [m] emissions per round, holds
    [p], and has [d] emissions to begin; [None] if memory ran out. *)
Inductive phase (m : nat) : list frame -> pos_t -> option nat -> Prop :=
| Ph_next r : phase m [FProg (connect_invoke r m)] PIdle (Some (r * m))
| Ph_end o d : (d = Some 0 \/ d = None /\ o = oom) -> phase m [FRet o] PIdle d
| Ph_lost : phase m [FProg (Ret oom)] PIdle None
| Ph_conn f r : f = FLock 0 adding \/ f = FWrite 0 adding \/ (exists v, f = FBody 0 v adding) ->
    phase m [f; FMkConn true; FWait (KC m r)] PIdle (Some (S r * m))
| Ph_added f r l : f = FUnlock 0 (OutId l) \/ f = FRet (OutId l) -> phase m [f; FMkConn true; FWait (KC m r)] (PHas l None) (Some (S r * m))
| Ph_oom f r : f = FUnlock 0 oom \/ f = FRet oom -> phase m [f; FMkConn true; FWait (KC m r)] PIdle None
| Ph_oom2 r : phase m [FRet oom; FWait (KC m r)] PIdle None
| Ph_made r l c : phase m [FRet (OutId c); FWait (KC m r)] (PHas l (Some c)) (Some (S r * m))
| Ph_loop j c r l : phase m [FProg (emit_then j c (connect_invoke r m))] (PHas l (Some c)) (Some (j + r * m))
| Ph_emit f j c r l : f = FLock 0 (KRead the_args) \/ f = FWrite 0 (KRead the_args) ->
    phase m [f; FWait (KE j c (connect_invoke r m))] (PHas l (Some c)) (Some (S j + r * m))
| Ph_in fs eid v a j c r l : inner eid fs -> phase m (fs ++ [FEmit 0 eid v a; FWait (KE j c (connect_invoke r m))]) (PIn eid l c) (Some (j + r * m))
| Ph_out z j c r l : phase m [FRet (OutOpt z); FWait (KE j c (connect_invoke r m))] (PHas l (Some c)) (Some (j + r * m))
| Ph_disc l r : phase m [FDisc l; FUnit l; FWait (fun _ => connect_invoke r m)] (PDisc l) (Some (r * m))
| Ph_rem f l r : f = FLock 0 (KRem l) \/ f = FWrite 0 (KRem l) \/ (exists v, f = FBody 0 v (KRem l)) \/ f = FUnlock 0 OutUnit \/ f = FRet OutUnit ->
    phase m [f; FRemRet l; FUnit l; FWait (fun _ => connect_invoke r m)] (PRem l) (Some (r * m))
| Ph_gone b l r : phase m [FRet (OutBool b); FUnit l; FWait (fun _ => connect_invoke r m)] PIdle (Some (r * m))
| Ph_back r : phase m [FRet OutUnit; FWait (fun _ => connect_invoke r m)] PIdle (Some (r * m)).

(** What the events of a step are, and what it does to what the thread holds. *)
Definition calm_ev (ev : event) : Prop :=
  match ev with ENewSig _ _ | EBlk _ _ | EMoveSig _ _ | EDestroySig _ | EErased _ _ _ => False | _ => True end.
Definition dull (ev : event) : Prop :=
  match ev with ENewSig _ _ | EConn _ _ _ _ | EFlag _ | EBlk _ _ | EMoveSig _ _ | EDestroySig _ | EErased _ _ _ | EEmit _ _ _ _ _ | ECall _ _ _ _ _ _ => False | _ => True end.
Inductive move (f : mem) (w : world) (t : tid) : pos_t -> option nat -> list event -> list connv -> pos_t -> option nat -> Prop :=
| M_same p d evs : Forall dull evs -> move f w t p d evs (v_conns (w_vars w)) p d
| M_fail d : f <> MOk -> move f w t PIdle d [] (v_conns (w_vars w)) PIdle None
| M_add d l i : l = length (w_slots w) -> im_conn i = true -> im_blk i = false ->
    move f w t PIdle d [EConn t 0 l i] (v_conns (w_vars w)) (PHas l None) d
| M_conn l d ev : dull ev -> move f w t (PHas l None) d [ev] (v_conns (w_vars w) ++ [ConnV true true (Some l)]) (PHas l (Some (length (v_conns (w_vars w))))) d
| M_emit l c d eid a : eid = w_neid w -> move f w t (PHas l (Some c)) (Some (S d)) [EEmit t eid 0 a (slots_of w 0)] (v_conns (w_vars w)) (PIn eid l c) (Some d)
| M_call eid l c d l' cc args start : move f w t (PIn eid l c) d [ECall t (RSlot l') (Some eid) cc args start] (v_conns (w_vars w)) (PIn eid l c) d
| M_ret eid l c d z : move f w t (PIn eid l c) d [EEmitRet t eid (OutOpt z)] (v_conns (w_vars w)) (PHas l (Some c)) d
| M_disc l c d : move f w t (PHas l (Some c)) d [] (alter (fun r => ConnV false (cn_scoped r) None) c (v_conns (w_vars w))) (PDisc l) d
| M_flag l d : move f w t (PDisc l) d [EFlag l] (v_conns (w_vars w)) (PRem l) d
| M_gone l d ev : dull ev -> move f w t (PRem l) d [ev] (v_conns (w_vars w)) PIdle d.

Lemma ref_rec w l i : get_ref w (RSlot l) = Some i -> exists r, w_slots w !! l = Some r /\ sl_impl r = i.
Proof. cbn. destruct (w_slots w !! l) as [r|]; [|discriminate]. cbn. intros [= <-]. eauto. Qed.

Section step.
Context (w : world) (t : tid) (w1 : world).
(** What is known of the world. *)
Hypothesis Hbl : forall r, w_sigs w !! 0 = Some r -> sg_blocked r = false.
Hypothesis Hcb : forall r, w_sigs w !! 0 = Some r -> sg_comb r = None.
Hypothesis Hfn : forall l r, w_slots w !! l = Some r -> c_kind (im_c (sl_impl r)) <> KTracked.

(** Inside an emission. *)
Lemma inner_step eid fs v a below st1 : inner eid fs -> trans add_env w t (fs ++ FEmit 0 eid v a :: below) w1 st1 ->
  v_conns (w_vars w1) = v_conns (w_vars w) /\
  ((exists fs' a', inner eid fs' /\ st1 = fs' ++ FEmit 0 eid v a' :: below /\
     exists evs, w_log w1 = evs ++ w_log w /\ (Forall dull evs \/ exists l' cc args start, evs = [ECall t (RSlot l') (Some eid) cc args start])) \/
   (exists z, st1 = FRet (OutOpt z) :: below /\ w_log w1 = EEmitRet t eid (OutOpt z) :: w_log w)).
Proof.
  intros Hi Htr.
  assert (Q : forall ev, dull ev -> exists evs, ev :: w_log w = evs ++ w_log w /\ (Forall dull evs \/ exists l' cc args start, evs = [ECall t (RSlot l') (Some eid) cc args start])).
  { intros ev Hev. exists [ev]. split; [reflexivity|]. left. repeat constructor. exact Hev. }
  assert (Q0 : exists evs, w_log w = evs ++ w_log w /\ (Forall dull evs \/ exists l' cc args start, evs = [ECall t (RSlot l') (Some eid) cc args start])).
  { exists []. split; [reflexivity|]. left. constructor. }
  destruct Hi as [p Hp|z|l g args pin start k pos Hg Hk|l args pin start k pos Hk|l args pin start k pos Hk|l z args k pos Hk]; cbn in Htr.
  - destruct Hp as [z|pos k Hk]; inversion Htr; subst; try discriminate; try contradiction; try (match goal with H : begins _ _ _ _ _ |- _ => inversion H end; fail).
    + split; [reflexivity|]. left. exists [FRet (OutOpt z)], a. split; [constructor|]. auto.
    + split; [reflexivity|]. left. eexists [_; _], a. split; [|split; [reflexivity|exact Q0]]. constructor; [split; discriminate|exact Hk].
  - inversion Htr; subst. split; [reflexivity|]. right. exists z. auto.
  - inversion Htr; subst.
    + split; [reflexivity|]. left. exists [FRet (OutCall (OutOpt None) args); FDeref k pos l], a. split; [constructor; exact Hk|]. split; [reflexivity|apply Q; exact I].
    + destruct Hg as [Hg _]. destruct Hg. reflexivity.
    + split; [reflexivity|]. left. eexists [_; _], a. split; [|split; [reflexivity|exact Q0]]. constructor; [|exact Hk].
      match goal with H : advances _ _ _ _ _ _ _ |- _ => inversion H; subst end; try (split; discriminate);
        exfalso; match goal with H : get_ref _ _ = Some _, H2 : c_kind _ = KTracked |- _ => apply ref_rec in H as (r & E & <-); exact (Hfn _ _ E H2) end.
    + split; [reflexivity|]. left. eexists [_; _; _], a. split; [|split; [reflexivity|]].
      * constructor. exact Hk.
      * eexists [_]. split; [reflexivity|]. right. eauto 10.
  - inversion Htr; subst. split; [reflexivity|]. left. eexists [_; _; _], a. split; [|split; [reflexivity|exact Q0]]. constructor. exact Hk.
  - inversion Htr; subst. match goal with H : wrap _ _ = Some _ |- _ => cbn in H; injection H as <- end.
    split; [reflexivity|]. left. eexists [_; _], a. split; [|split; [reflexivity|apply Q; exact I]]. constructor. exact Hk.
  - inversion Htr; subst. split; [reflexivity|]. left. eexists [_], _. split; [|split; [reflexivity|apply Q; exact I]]. constructor. apply Hk.
Qed.

Definition world_ok (p : pos_t) : Prop :=
  match p with
  | PHas l (Some c) => v_conns (w_vars w) !! c = Some (ConnV true true (Some l)) /\ slot_alive w l = true
  | PDisc l => forall r, w_slots w !! l = Some r -> im_conn (sl_impl r) = true /\ sl_sig r = 0
  | _ => True
  end.
(** With enough memory. *)
Ltac lost H := cbn in H; unfold step_write, step_body in H; cbn in H; repeat (dm H; try discriminate); try discriminate.
Lemma phase_step m st p d st1 f : phase m st p d -> world_ok p -> lstep add_env w t f st = LOk w1 st1 -> trans add_env w t st w1 st1 ->
  exists p' d' evs, phase m st1 p' d' /\ w_log w1 = evs ++ w_log w /\ move f w t p d evs (v_conns (w_vars w1)) p' d'.
Proof.
  intros Hph Hok Hls Htr.
  assert (Hsame : forall p d, move f w t p d [] (v_conns (w_vars w)) p d) by (intros; apply M_same; constructor).
  assert (Hdull : forall p d ev, dull ev -> move f w t p d [ev] (v_conns (w_vars w)) p d) by (intros; apply M_same; repeat constructor; assumption).
  destruct Hph.
  - (* next *) destruct r as [|r]; cbn [connect_invoke] in Htr; inversion Htr; subst.
    + exists PIdle, (Some 0), []. split; [constructor; auto|]. auto.
    + exists PIdle, None, []. split; [apply Ph_oom2|]. split; [reflexivity|]. apply M_fail. intros ->. lost Hls.
    + match goal with H : begins _ _ _ _ _ |- _ => inversion H; subst end.
      exists PIdle, (Some (S r * m)), []. split; [apply (Ph_conn m _ r); left; reflexivity|]. auto.
  - inversion Htr.
  - inversion Htr; subst. exists PIdle, None, []. split; [constructor; auto|]. auto.
  - (* conn *) destruct H as [->|[->|[v ->]]]; inversion Htr; subst.
    + exists PIdle, (Some (S r * m)), []. split; [apply Ph_conn; auto|]. auto.
    + exists PIdle, None, []. split; [apply (Ph_oom m _ r); auto|]. split; [reflexivity|]. apply M_fail. intros ->. lost Hls.
    + exists PIdle, (Some (S r * m)), []. split; [apply Ph_conn; eauto|]. auto.
    + exists PIdle, (Some (S r * m)), []. split; [apply Ph_conn; eauto|]. auto.
    + exists PIdle, None, []. split; [apply (Ph_oom m _ r); auto|]. split; [reflexivity|]. apply M_fail. intros ->. lost Hls.
    + eexists (PHas _ None), (Some (S r * m)), [_]. split; [apply (Ph_added m _ r); left; reflexivity|]. split; [reflexivity|]. wcbn. apply M_add; reflexivity.
  - (* added *) destruct H as [->| ->]; inversion Htr; subst.
    + exists (PHas l None), (Some (S r * m)), []. split; [apply Ph_added; auto|]. auto.
    + eexists (PHas l (Some _)), (Some (S r * m)), [_]. split; [apply Ph_made|]. split; [reflexivity|]. wcbn. apply M_conn. exact I.
    + match goal with H : forall l, OutId _ <> _ |- _ => destruct (H _ eq_refl) end.
  - (* oom *) destruct H as [->| ->]; inversion Htr; subst.
    + exists PIdle, None, []. split; [apply Ph_oom; auto|]. auto.
    + exists PIdle, None, []. split; [apply Ph_oom2|]. auto.
  - inversion Htr; subst. exists PIdle, None, []. split; [apply Ph_lost|]. auto.
  - (* made *) inversion Htr; subst. exists (PHas l (Some c)), (Some (S r * m)), []. split; [apply (Ph_loop m m c r l)|]. auto.
  - (* loop *) destruct j as [|j]; cbn [emit_then] in Htr; inversion Htr; subst; try (match goal with H : can_oom _ |- _ => destruct H end; fail); try (match goal with H : begins _ _ _ _ _ |- _ => inversion H; subst end).
    1-6: destruct Hok as [Hc Ha].
    1-6: match goal with H : exec_vop _ _ _ = _ |- _ => unfold exec_vop in H; cbv zeta in H; unfold get_conn in H; rewrite Hc in H; cbn in H; try discriminate H end.
    + match goal with H : VDo _ _ _ = _ |- _ => injection H as <- <- <- end. exists (PDisc l), (Some (r * m)), []. split; [apply Ph_disc|]. split; [reflexivity|]. wcbn. apply M_disc.
    + congruence.
    + exists (PHas l (Some c)), (Some (S j + r * m)), []. split; [apply Ph_emit; auto|]. auto.
    + exfalso. match goal with H : get_sig _ _ = Some _ |- _ => apply get_sig_Some in H as [H _]; rewrite (Hbl _ H) in *; discriminate end.
  - (* emit *) destruct H as [->| ->]; inversion Htr; subst; try contradiction.
    + exists (PHas l (Some c)), (Some (S j + r * m)), []. split; [apply Ph_emit; auto|]. auto.
    + match goal with H : w_sigs _ !! 0 = Some _ |- _ => rewrite (Hcb _ H) end.
      eexists (PIn _ l c), (Some (j + r * m)), [_]. split; [apply (Ph_in m [_]); constructor; apply olv_fine|]. split; [reflexivity|].
      match goal with Hs : w_sigs _ !! 0 = Some ?x, Hv : sg_vec ?x = Some ?v |- _ => assert (Hx : vec_of w v = slots_of w 0) by (unfold slots_of; rewrite Hs, Hv; reflexivity) end.
      rewrite Hx. wcbn. apply M_emit. reflexivity.
  - (* in *) rewrite <- app_assoc in Htr || idtac. cbn [app] in Htr. destruct (inner_step _ _ _ _ _ _ H Htr) as (Hc & [(fs' & a' & Hi & -> & evs & Hl & He)|(z & -> & Hl)]); rewrite Hc.
    + exists (PIn eid l c), (Some (j + r * m)), evs. split; [apply Ph_in; exact Hi|]. split; [exact Hl|].
      destruct He as [He|(l' & cc & args & start & ->)]; [apply M_same; exact He|apply M_call].
    + exists (PHas l (Some c)), (Some (j + r * m)), [EEmitRet t eid (OutOpt z)]. split; [apply Ph_out|]. split; [exact Hl|apply M_ret].
  - (* out *) inversion Htr; subst. exists (PHas l (Some c)), (Some (j + r * m)), []. split; [apply (Ph_loop m j c r l)|]. auto.
  - (* disc *) inversion Htr; subst; destruct (Hok _ ltac:(eassumption)) as [Hc Hs]; [|congruence].
    exists (PRem l), (Some (r * m)), [EFlag l]. split; [rewrite Hs; apply Ph_rem; auto|]. split; [reflexivity|]. wcbn. apply M_flag.
  - (* rem *) destruct H as [->|[->|[[v ->]|[->| ->]]]]; inversion Htr; subst; try contradiction.
    + exists (PRem l), (Some (r * m)), []. split; [apply Ph_rem; auto|]. auto.
    + exfalso. match goal with H : forall l, _ <> _ |- _ => exact (H _ eq_refl) end.
    + exists (PRem l), (Some (r * m)), []. split; [apply Ph_rem; eauto|]. auto.
    + exists (PRem l), (Some (r * m)), []. split; [apply Ph_rem; eauto|]. auto.
    + eexists (PRem l), (Some (r * m)), [_]. split; [apply Ph_rem; auto|]. split; [wcbn; autorewrite with wsimp; reflexivity|]. wcbn. autorewrite with wsimp. apply Hdull. exact I.
    + eexists (PRem l), (Some (r * m)), [_]. split; [apply Ph_rem; auto|]. split; [reflexivity|]. wcbn. apply Hdull. exact I.
    + exists (PRem l), (Some (r * m)), []. split; [apply Ph_rem; auto 10|]. auto.
    + eexists PIdle, (Some (r * m)), [_]. split; [apply Ph_gone|]. split; [reflexivity|]. wcbn. apply M_gone. exact I.
  - inversion Htr; subst. eexists PIdle, (Some (r * m)), [_]. split; [apply Ph_back|]. split; [reflexivity|]. wcbn. apply Hdull. exact I.
  - inversion Htr; subst. exists PIdle, (Some (r * m)), []. split; [apply Ph_next|]. auto.
Qed.
End step.
