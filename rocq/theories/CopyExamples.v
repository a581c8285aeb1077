(** * Concrete cases *)
From Verif Require Import Witness RaceExamples AtomicExamples OpExamples WaitProof.
From Verif Require Export CopyProof.

(** Thread 0 emits; thread 1 connects and disconnects during the emission. *)
Definition cp_ps := [seqp [ONewSignal None; OConnect 0 (SrcFn (fn 1)) false; OEmit 0 []] OutUnit;
                     seqp [OConnect 0 (SrcFn (fn 2)) false; OVar (VDisc 0)] OutUnit].
Definition walked_by (w : world) (t : tid) (v : vid) : bool :=
  match w_thr w !! t with Some stk => existsb (fun f => match f with FEmit _ _ v' _ => bool_decide (v' = v) | _ => false end) stk | None => false end.
Lemma walked_by_walked w t v : walked_by w t v = true -> walked w v.
Proof.
  unfold walked_by. destruct (w_thr w !! t) as [stk|] eqn:Ht; [|discriminate]. intros H. apply existsb_exists in H as (f & Hf & H). destruct f; try discriminate.
  apply bool_decide_eq_true in H. subst. exists t, stk. repeat eexists; eauto. apply elem_of_list_In. exact Hf.
Qed.
Lemma step_by_run e ps sc t f (P : world -> sres -> bool) : match run e (init ps) sc with inl w => P w (step e w t f) | inr _ => false end = true ->
  exists w, reachable e ps w /\ P w (step e w t f) = true.
Proof. intros H. destruct (run e (init ps) sc) as [w|] eqn:Hr; [|discriminate H]. exists w. split; [eexists; exact Hr|exact H]. Qed.
Lemma ex_C74_copy : exists w w', reachable y1_env cp_ps w /\ step y1_env w 1 MOk = SOk w' /\ lists w' <> lists w /\ walked w 0 /\ w_vecs w = [[0]] /\ w_vecs w' = [[0]; [0]].
Proof.
  destruct (step_by_run y1_env cp_ps (sch [(0, 12); (1, 2)]) 1 MOk (fun w r => match r with SOk w' => walked_by w 0 0 && bool_decide (w_vecs w = [[0]]) && bool_decide (w_vecs w' = [[0]; [0]]) | _ => false end))
    as (w & Hr & H); [vm_compute; reflexivity|]. destruct (step y1_env w 1 MOk) as [w'| | |] eqn:Hs; try discriminate H.
  apply andb_true_iff in H as [H H3]. apply andb_true_iff in H as [H1 H2]. apply bool_decide_eq_true in H2, H3. exists w, w'.
  split; [exact Hr|]. split; [exact Hs|]. split; [unfold lists; rewrite H2, H3; intros [=]|]. split; [eapply walked_by_walked; exact H1|auto].
Qed.
Lemma ex_C74_terminate : exists w, reachable y1_env cp_ps w /\ step y1_env w 1 MThrow = SUB UTerminate /\ walked w 0.
Proof.
  destruct (step_by_run y1_env cp_ps (sch [(0, 9); (1, 9); (0, 3); (1, 1)]) 1 MThrow (fun w r => match r with SUB UTerminate => walked_by w 0 0 | _ => false end))
    as (w & Hr & H); [vm_compute; reflexivity|]. destruct (step y1_env w 1 MThrow) as [| | |[]] eqn:Hs; try discriminate H.
  exists w. split; [exact Hr|]. split; [exact Hs|]. eapply walked_by_walked; exact H.
Qed.
Lemma ex_C74_lists : exists w, reachable y1_env [seqp [ONewSignal None; ONewSignal None] OutUnit] w /\ list_of w 0 0 /\ list_of w 1 1.
Proof.
  destruct (run_world y1_env [seqp [ONewSignal None; ONewSignal None] OutUnit] (sch [(0, 9)]) (fun w => match w_sigs w with
    | [r0; r1] => sg_alive r0 && sg_alive r1 && bool_decide (sg_vec r0 = Some 0) && bool_decide (sg_vec r1 = Some 1) | _ => false end)) as (w & Hr & Hw); [vm_compute; reflexivity|].
  exists w. split; [exact Hr|]. destruct (w_sigs w) as [|r0 [|r1 [|]]] eqn:Hsg; try discriminate.
  apply andb_true_iff in Hw as [Hw H4]. apply andb_true_iff in Hw as [Hw H3]. apply andb_true_iff in Hw as [H1 H2]. apply bool_decide_eq_true in H3, H4.
  split; [exists r0|exists r1]; rewrite Hsg; auto.
Qed.

(** Counting: the steps of a call that runs no client code. *)
Fixpoint own_run (e : env) (t : tid) (d m : nat) (w : world) (n : nat) : option (world * nat) :=
  match m with
  | 0 => Some (w, n)
  | S m =>
      match w_thr w !! t with
      | Some stk =>
          if existsb client_frame (take (length stk - d) stk) || (length stk =? S d) && match stk with FRet _ :: _ => true | _ => false end then None
          else match step e w t MOk with SOk w' => own_run e t d m w' (n + (lists w' - lists w)) | _ => None end
      | None => None
      end
  end.
Lemma own_run_made e ps t op k st w0 d m w n w' n' : reachable e ps w0 -> (forall pos, op <> ODeref pos) -> d = S (length st) -> made e t op k st w0 w n ->
  own_run e t d m w n = Some (w', n') -> made e t op k st w0 w' n'.
Proof.
  intros Hr Hnd -> . revert w n. induction m as [|m IH]; intros w n Hm H; cbn [own_run] in H; [injection H as <- <-; exact Hm|].
  destruct (made_bound _ _ _ _ _ _ _ _ _ 1 Hr Hnd (or_introl (le_n 1)) Hm) as (c & b & Ht & _). rewrite Ht in H.
  destruct (existsb client_frame _ || _) eqn:Hb; [discriminate|]. apply orb_false_iff in Hb as [Hb1 Hb2].
  destruct (step e w t MOk) as [w1| | |] eqn:Hs; try discriminate. eapply (IH w1); [|exact H].
  eapply D_own; [exact Hm|exact Ht| | |exact Hs].
  - exists (c ++ b). split; [rewrite <- app_assoc; reflexivity|]. intros f Hf. destruct (client_frame f) eqn:Hcf; [|auto]. exfalso.
    apply not_true_iff_false in Hb1. apply Hb1. apply existsb_exists. exists f. split; [|exact Hcf].
    replace (length (c ++ b ++ FWait k :: st) - S (length st)) with (length (c ++ b)) by (rewrite !app_length; cbn; lia). rewrite app_assoc, take_app. apply elem_of_list_In. exact Hf.
  - intros o Ho. unfold returned in Ho. rewrite Ht in Ho. injection Ho as Ho. rewrite Ho in Hb2. cbn [length] in Hb2. rewrite Nat.eqb_refl in Hb2. discriminate.
Qed.
Lemma made_by_run e ps sc0 t o m nn :
  match run e (init ps) sc0 with
  | inl w0 => match w_thr w0 !! t with
              | Some (FProg (Do o' k) :: st) => bool_decide (o' = o) &&
                  match step e w0 t MOk with
                  | SOk w1 => match own_run e t (S (length st)) m w1 (lists w1 - lists w0) with Some (w, n) => Nat.eqb n nn | None => false end
                  | _ => false end
              | _ => false end
  | inr _ => false end = true -> (forall pos, o <> ODeref pos) -> exists k st w0 w, reachable e ps w0 /\ made e t o k st w0 w nn.
Proof.
  intros H Hnd. destruct (run e (init ps) sc0) as [w0|] eqn:Hr; [|discriminate H]. destruct (w_thr w0 !! t) as [[|[] st]|] eqn:Ht; try discriminate.
  destruct p as [|o' k]; try discriminate. apply andb_true_iff in H as [Ho H]. apply bool_decide_eq_true in Ho. subst o'.
  destruct (step e w0 t MOk) as [w1| | |] eqn:Hs; try discriminate. destruct (own_run e t (S (length st)) m w1 (lists w1 - lists w0)) as [[w n]|] eqn:Hrun; [|discriminate].
  apply Nat.eqb_eq in H. subst n. exists k, st, w0, w. assert (Hre : reachable e ps w0) by (eexists; exact Hr). split; [exact Hre|].
  eapply own_run_made; [exact Hre|exact Hnd|reflexivity|eapply D_start; [exact Ht|exact Hs]|exact Hrun].
Qed.
Lemma ex_C74_one : exists k st w0 w, reachable y1_env cp_ps w0 /\ made y1_env 1 (OConnect 0 (SrcFn (fn 2)) false) k st w0 w 1.
Proof. apply (made_by_run y1_env cp_ps (sch [(0, 12)]) 1 (OConnect 0 (SrcFn (fn 2)) false) 4 1); [vm_compute; reflexivity|discriminate]. Qed.
Lemma ex_C74_none : exists k st w0 w, reachable y1_env cp_ps w0 /\ made y1_env 0 (OEmit 0 []) k st w0 w 0 /\ ~ may_make w0 (OEmit 0 []).
Proof.
  destruct (made_by_run y1_env cp_ps (sch [(0, 9)]) 0 (OEmit 0 []) 2 0) as (k & st & w0 & w & Hr & Hm); [vm_compute; reflexivity|discriminate|].
  exists k, st, w0, w. split; [exact Hr|]. split; [exact Hm|]. intros [l []].
Qed.
Lemma made_in_call e t op k st w0 w n : made e t op k st w0 w n -> in_call e t op k st w0 w.
Proof.
  induction 1 as [fail w Ht Hs|t' fail w w' n H IH Hn Hs|fail w w' stk n H IH Ht Hown Hn Hs]; [eapply C_start; eauto| |eapply C_step; eauto].
  eapply C_step; [exact IH| |exact Hs]. intros -> o Ho. apply (Hn eq_refl _ Ho). exists [FRet o]. split; [reflexivity|].
  intros f Hf. apply elem_of_list_singleton in Hf. subst. reflexivity.
Qed.
Lemma ex_C74_counted : exists k st w0 w, reachable y1_env cp_ps w0 /\ in_call y1_env 1 (OConnect 0 (SrcFn (fn 2)) false) k st w0 w.
Proof. destruct ex_C74_one as (k & st & w0 & w & Hr & Hm). exists k, st, w0, w. split; [exact Hr|]. eapply made_in_call; exact Hm. Qed.
