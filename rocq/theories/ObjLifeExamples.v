(** * The life of tracked objects: the statements about runs, and runs *)
From Verif Require Import RaceExamples InvDeath InvFields InvObj InvCall Hist Facts.
From Verif Require Export LifeExamples ObjLifeOnce.

Lemma obj_of e ps w tr : tracked_run e ps w tr -> RaceProof.Inv sw_obj False w tr /\ Life sw_obj False w tr /\ Objs sw_obj w tr.
Proof.
  exact (tracked_inv sw_obj False (fun s => SO_life _ _ (life_lock s)) (fun v => SO_life _ _ (life_cnt v)) (fun U => match U with end)
    (fun l => SO_life _ _ (SL_slot l)) (fun l => SO_life _ _ (SL_hand l)) SO_obj SO_give e ps w tr).
Qed.
Lemma before_destroyed e ps w tr i j o (b : bool) : tracked_run e ps w tr -> i < j -> accesses tr i (LObj o) b -> accesses tr j (LObj o) true -> hb sw_obj tr i j.
Proof. intros Hl Hlt Hi Hj. destruct (obj_of _ _ _ _ Hl) as (_ & _ & HO). eapply (O_ord _ _ _ HO); eauto. Qed.
Lemma after_made e ps w tr i j o (b : bool) : tracked_run e ps w tr -> made_before_connected (w_log w) o -> i < j -> accesses tr i (LObj o) true -> accesses tr j (LObj o) b -> hb sw_obj tr i j.
Proof. intros Hl Hf Hlt Hi Hj. destruct (obj_of _ _ _ _ Hl) as (_ & _ & HO). eapply (O_ord _ _ _ HO); eauto. Qed.

Lemma only_race_obj e ps w tr i j : tracked_run e ps w tr -> (forall o, made_before_connected (w_log w) o) -> race sw_obj tr i j -> i < j ->
  exists t u x, t <> u /\ tr !! i = Some (t, Rd x) /\ tr !! j = Some (u, Wr x) /\
    ((exists v, x = LVec v) \/ (exists l, x = LSlot l /\ taken_out (w_log w) l)).
Proof.
  intros Hl Hf (t & u & x & a & b & Hn & Hi & Hj & Hab & H1 & H2) Hlt. destruct (obj_of _ _ _ _ Hl) as (HI & HL & HO). exists t, u, x. split; [auto|].
  assert (Hai : accesses tr i x a) by (exists t; auto). assert (Haj : accesses tr j x b) by (exists u; auto).
  destruct x as [s|v|l|l|o].
  - exfalso. apply H1. eapply (V_good _ _ _ _ HI); eauto. split; cbn; auto.
  - destruct a; [exfalso; apply H1; eapply (V_good _ _ _ _ HI); eauto; split; cbn; auto|]. destruct b; [|destruct Hab; discriminate].
    split; [auto|]. split; [auto|]. left. eauto.
  - exfalso. apply H1. eapply (V_good _ _ _ _ HI); eauto. split; cbn; auto.
  - destruct a; [exfalso; apply H1; eapply (L_ord _ _ _ _ HL); eauto|]. destruct b; [|destruct Hab; discriminate].
    split; [auto|]. split; [auto|]. right. exists l. split; [auto|]. destruct (taken_dec (w_log w) l) as [Ht|Ht]; [auto|].
    exfalso. apply H1. eapply (L_ord _ _ _ _ HL); eauto. right. right. auto.
  - exfalso. apply H1. eapply (O_ord _ _ _ HO); eauto.
Qed.

(** ** Every run has its actions, and every call is one *)
Lemma run_tracked e ps w0 tr0 sc w : tracked_run e ps w0 tr0 -> run e w0 sc = inl w -> exists tr, tracked_run e ps w (tr0 ++ tr).
Proof.
  revert w0 tr0. induction sc as [|[t f] sc IH]; intros w0 tr0 H0 Hr; cbn in Hr.
  - simplify_eq. exists []. rewrite app_nil_r. auto.
  - destruct (step e w0 t f) as [w1| | |] eqn:Hs; try discriminate; eauto.
    destruct (w_thr w0 !! t) as [st|] eqn:Ht; [|unfold step in Hs; rewrite Ht in Hs; discriminate].
    destruct (IH w1 _ (K_step _ _ _ _ _ _ _ _ H0 Ht Hs) Hr) as [tr Htr]. rewrite <- app_assoc in Htr. eauto.
Qed.
Lemma reach_tracked e ps w : reachable e ps w -> exists tr, tracked_run e ps w tr.
Proof. intros [sc Hsc]. destruct (run_tracked e ps _ _ _ _ (K_init e ps) Hsc) as [tr H]. eauto. Qed.

Lemma calls e w t st w' st' t' r eid c args n : trans e w t st w' st' -> w_log w' = ECall t' r eid c args n :: w_log w -> t' = t /\ exists pin k, st = FSlot r SCall args pin eid n :: k.
Proof.
  intros Htr H. destruct Htr; wcbn_in H; autorewrite with wsimp in H; try (exfalso; symmetry in H; exact (cons_ne _ _ H)); try discriminate; simplify_eq; vlog_no.
  eauto.
Qed.
Lemma calls_are_uses e ps w tr t l eid c args n o : tracked_run e ps w tr -> ECall t (RSlot l) eid c args n ∈ w_log w -> spec_tracks (w_log w) l = Some o ->
  exists i, tr !! i = Some (t, Rd (LObj o)).
Proof.
  intros Hl. revert t l eid c args n o. induction Hl as [|w tr u fail st w' Hl IH Ht Hs]; intros t l eid c args n o Hin Htr; [inversion Hin|].
  pose proof (tracked_reach _ _ _ _ Hl) as Hr.
  destruct (step_inv _ _ _ _ _ _ Hs Ht) as (w1 & st1 & D & L & Htrans & _ & HD & HL & _ & _ & _ & _ & Elog & _).
  rewrite Elog in Hin. apply elem_of_app in Hin as [Hin|Hin].
  { exfalso. unfold deadish in HL. rewrite Forall_forall in HL. destruct (HL _ Hin) as [[? ?]|[? ?]]; discriminate. }
  assert (Hw' : wf_log (w_log w')) by (eapply wf_log_reach; eapply reachable_step; eauto).
  destruct (trans_log_app _ _ _ _ _ _ Htrans) as [new Enew].
  assert (Hback : forall i, spec_conn0 (w_log w) l = Some i -> spec_tracks (w_log w) l = Some o).
  { intros i Hi. unfold spec_tracks in *. rewrite Elog, Enew, app_assoc in Htr, Hw'. rewrite (conn0_app _ _ _ _ Hw' Hi) in Htr. rewrite Hi. exact Htr. }
  assert (Hone : forall i, tr !! i = Some (t, Rd (LObj o)) -> exists i, (tr ++ blk u (full_acts w u st w')) !! i = Some (t, Rd (LObj o))) by (intros i Hi; exists i; apply lookup_app_l_Some; exact Hi).
  assert (Hold : ECall t (RSlot l) eid c args n ∈ w_log w -> exists i, (tr ++ blk u (full_acts w u st w')) !! i = Some (t, Rd (LObj o))).
  { intros Hold. destruct (elem_of_list_split _ _ Hold) as (l1 & l2 & E). pose proof (call_facts _ _ _ Hr _ _ _ E) as (_ & (i & Hi & _) & _).
    assert (Hi' : spec_conn0 (w_log w) l = Some i).
    { pose proof (wf_log_reach _ _ _ Hr) as Hwf. rewrite E in Hwf |- *. rewrite (cons_middle _ l1 l2), app_assoc in Hwf |- *. apply conn0_app; auto. }
    destruct (IH _ _ _ _ _ _ _ Hold (Hback i Hi')) as [j Hj]. eauto. }
  destruct (trans_log _ _ _ _ _ _ Htrans) as [He|[(ev1 & He)|(l' & args' & pin & eid' & start & st0 & i & _ & _ & _ & He)]]; rewrite He in Hin.
  - auto.
  - apply elem_of_cons in Hin as [<-|Hin]; [|auto]. destruct (calls _ _ _ _ _ _ _ _ _ _ _ _ Htrans He) as (-> & pin & k & ->).
    pose proof (I_call_inv _ _ _ Hr _ _ Ht) as HC. apply Forall_cons in HC as [HC _]. cbn in HC. destruct HC as (_ & (i & Hi) & _ & _ & _ & Hpin).
    rewrite (Hback i Hi) in Hpin. subst pin.
    assert (Hx : Rd (LObj o) ∈ full_acts w u (FSlot (RSlot l) SCall args (Some o) eid n :: k) w') by (unfold full_acts, obj_uses; rewrite !elem_of_app; left; right; left).
    apply elem_of_list_lookup in Hx as [j Hj]. exists (length tr + j). rewrite lookup_app_r by lia. replace (length tr + j - length tr) with j by lia.
    rewrite list_lookup_fmap, Hj. reflexivity.
  - apply elem_of_cons in Hin as [?|Hin]; [discriminate|]. apply elem_of_cons in Hin as [?|Hin]; [discriminate|]. auto.
Qed.

(** ** Computing the actions of a run *)
Fixpoint obj_run (e : env) (w : world) (sc : list (tid * mem)) (tr : list (tid * act)) : option (world * list (tid * act)) :=
  match sc with
  | [] => Some (w, tr)
  | (t, f) :: sc =>
      match step e w t f with
      | SOk w' => obj_run e w' sc (tr ++ ((fun a => (t, a)) <$> full_acts w t (default [] (w_thr w !! t)) w'))
      | SBlocked | SDone => obj_run e w sc tr
      | SUB _ => None
      end
  end.
Lemma obj_run_tracked e ps sc w0 tr0 w tr : tracked_run e ps w0 tr0 -> obj_run e w0 sc tr0 = Some (w, tr) -> tracked_run e ps w tr.
Proof.
  revert w0 tr0. induction sc as [|[t f] sc IH]; intros w0 tr0 H0 Hr; cbn in Hr; [simplify_eq; eauto|].
  destruct (step e w0 t f) as [w1| | |] eqn:Hs; try discriminate; eauto.
  destruct (w_thr w0 !! t) as [st|] eqn:Ht; [|unfold step in Hs; rewrite Ht in Hs; discriminate].
  eapply IH; [|exact Hr]. cbn. eapply K_step; eauto.
Qed.
Definition obj_log (e : env) (ps : list prog) (sc : list (tid * mem)) : option (list event * list (tid * act)) :=
  match obj_run e (init ps) sc [] with Some (w, tr) => Some (w_log w, tr) | None => None end.
Lemma obj_log_tracked e ps sc log tr : obj_log e ps sc = Some (log, tr) -> exists w, tracked_run e ps w tr /\ w_log w = log.
Proof.
  unfold obj_log. destruct (obj_run e (init ps) sc []) as [[w tr']|] eqn:E; [|discriminate]. intros H. simplify_eq. exists w. split; [|auto].
  eapply obj_run_tracked; [constructor|exact E].
Qed.

(** ** Runs *)

(** One thread makes a signal and an object, connects a member function of the object,
    and resets its shared_ptr; the other thread emits. *)
Definition o1_ps := [seqp [ONewSignal None; OVar VNewObj; OConnect 0 (SrcFn (trk 1 0)) false; OVar (VResetObj 0)] OutUnit; seqp [OEmit 0 []] OutUnit].
Definition o1_a := sch [(0, 11); (1, 40); (0, 20)].
Definition o1_b := sch [(0, 11); (1, 10); (0, 20); (1, 40)].
Definition o1 := Eval vm_compute in default ([], []) (obj_log y1_env o1_ps o1_a).
Definition o2 := Eval vm_compute in default ([], []) (obj_log y1_env o1_ps o1_b).
Lemma o1_tracked : exists w, tracked_run y1_env o1_ps w (snd o1) /\ w_log w = fst o1.
Proof. apply (obj_log_tracked _ _ o1_a). vm_compute. reflexivity. Qed.
Lemma o2_tracked : exists w, tracked_run y1_env o1_ps w (snd o2) /\ w_log w = fst o2.
Proof. apply (obj_log_tracked _ _ o1_b). vm_compute. reflexivity. Qed.

Definition mbc (o : oid) (log : list event) : bool :=
  (fix go log := match log with
   | [] => true
   | EConn _ _ _ i :: pre => implb (match c_kind (im_c i) with KTracked => Nat.eqb (c_pv (im_c i)) o | _ => false end)
                                (existsb (fun ev => match ev with ENewObj o' => Nat.eqb o' o | _ => false end) pre) && go pre
   | _ :: pre => go pre
   end) log.
Lemma mbc_ok o log : mbc o log = true -> made_before_connected log o.
Proof.
  induction log as [|ev log IH]; intros H post ev' pre E; [destruct post; discriminate|].
  assert (Hgo : mbc o log = true) by (destruct ev; try exact H; cbn in H; apply andb_true_iff in H; apply H).
  destruct post as [|x post]; cbn in E; [|injection E as _ E; eapply IH; eauto]. injection E as <- <-.
  destruct ev; try exact I. intros Hk Ho. cbn in H. rewrite Hk, Ho, Nat.eqb_refl in H. cbn in H. apply andb_true_iff in H as [H _].
  apply existsb_exists in H as (ev & Hin & H). destruct ev; try discriminate. apply Nat.eqb_eq in H. subst. apply elem_of_list_In. auto.
Qed.

(** The call is over when the client resets its shared_ptr: the client destroys the object. *)
Lemma ex_C70_client : exists w tr, tracked_run y1_env o1_ps w tr /\ ENewObj 0 ∈ w_log w /\ spec_obj (w_log w) 0 = false /\ made_before_connected (w_log w) 0 /\
  tr !! 3 = Some (0, Wr (LObj 0)) /\ tr !! 30 = Some (1, Rd (LObj 0)) /\ tr !! 42 = Some (0, Wr (LObj 0)).
Proof.
  destruct o1_tracked as (w & Hw & El). exists w, (snd o1). split; [exact Hw|]. rewrite El.
  split; [unfold o1; cbn [fst]; repeat first [apply elem_of_list_here|apply elem_of_list_further]|].
  split; [vm_compute; reflexivity|]. split; [apply mbc_ok; vm_compute; reflexivity|]. split; [vm_compute; reflexivity|]. split; vm_compute; reflexivity.
Qed.
(** The client resets it during the call: the thread that emits destroys the object. *)
Lemma ex_C70_call : exists w tr, tracked_run y1_env o1_ps w tr /\ made_before_connected (w_log w) 0 /\ (exists c args n, ECall 1 (RSlot 0) (Some 0) c args n ∈ w_log w) /\ spec_tracks (w_log w) 0 = Some 0 /\
  tr !! 3 = Some (0, Wr (LObj 0)) /\ tr !! 32 = Some (0, Acq (YGive 0)) /\ tr !! 35 = Some (1, Rd (LObj 0)) /\ tr !! 40 = Some (1, Wr (LObj 0)).
Proof.
  destruct o2_tracked as (w & Hw & El). exists w, (snd o2). split; [exact Hw|]. rewrite El.
  split; [apply mbc_ok; vm_compute; reflexivity|].
  split; [eexists _, _, _; unfold o2; cbn [fst]; repeat first [apply elem_of_list_here|apply elem_of_list_further]|].
  split; [vm_compute; reflexivity|]. split; [vm_compute; reflexivity|]. split; [vm_compute; reflexivity|]. split; vm_compute; reflexivity.
Qed.
Lemma obj_all tr i j : hb sw_obj tr i j -> hb sw_life_all tr i j.
Proof.
  induction 1 as [i j t a b Hlt Hi Hj|i j t u a b Hlt Hi Hj Hs|i j k _ IH1 _ IH2]; [eapply HB_thread; eauto| |eapply HB_trans; eauto].
  eapply HB_sync; eauto. apply LA_all. destruct Hs as [? ? [? ? []|l|l]|o|o]; constructor.
Qed.
Definition o3 := Eval vm_compute in default ([], []) (obj_log y1_env z1_ps z1_sched).
Lemma ex_C70_race : exists w tr, tracked_run y1_env z1_ps w tr /\ (forall o, made_before_connected (w_log w) o) /\ race sw_obj tr 26 49.
Proof.
  assert (Ho3 : exists w, tracked_run y1_env z1_ps w (snd o3) /\ w_log w = fst o3) by (apply (obj_log_tracked _ _ z1_sched); vm_compute; reflexivity).
  destruct Ho3 as (w & Hw & El). exists w, (snd o3). split; [exact Hw|]. rewrite El. split.
  { intros o. apply mbc_ok. vm_compute. reflexivity. }
  exists 0, 1, (LSlot 0), false, true.
  split; [auto|]. split; [vm_compute; reflexivity|]. split; [vm_compute; reflexivity|]. split; [auto|]. split.
  - intros H. apply z1_open, obj_all, H.
  - intros H. apply hb_lt in H. lia.
Qed.
