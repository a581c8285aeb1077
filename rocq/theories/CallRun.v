(** * Calls in concrete executions *)
From Verif Require Export Examples OpErase.

Global Instance csrc_eq_dec : EqDecision csrc. Proof. solve_decision. Defined.
Global Instance slotref_eq_dec : EqDecision slotref. Proof. solve_decision. Defined.
Global Instance vop_eq_dec : EqDecision vop. Proof. solve_decision. Defined.
Global Instance op_eq_dec : EqDecision op. Proof. solve_decision. Defined.

(** While a call is in progress its continuation stays where it is. *)
Lemma in_call_stack e ps t op k st w0 w : reachable e ps w0 -> (forall pos, op <> ODeref pos) -> in_call e t op k st w0 w ->
  reachable e ps w /\ exists c, c <> [] /\ w_thr w !! t = Some (c ++ FWait k :: st).
Proof.
  intros Hr0 Hnd H. assert (Hgo : reachable e ps w /\ exists c, w_thr w !! t = Some (c ++ FWait k :: st)).
  { induction H as [fail w Ht Hs|t' fail w w' H [Hr IH] Hn Hs].
    - split; [eapply reachable_step; eauto|]. destruct (step_inv _ _ _ _ _ _ Hs Ht) as (w1 & st1 & D & L & Htr & _ & _ & _ & _ & _ & _ & _ & _ & Hth).
      assert (exists c, st1 = c ++ FWait k :: st) as (c & ->).
      { inversion Htr; subst; try (eexists [_]; reflexivity); try (eexists [_; _]; reflexivity); try (exfalso; eapply Hnd; reflexivity);
        [eexists (FDisc l :: after)|eexists (FRet (OutBool false) :: after)|eexists (FLock s kk :: fr)]; cbn; reflexivity. }
      exists (D ++ c). rewrite Hth, list_lookup_insert by (eapply lookup_lt_Some; eauto). rewrite app_assoc. reflexivity.
    - split; [eapply reachable_step; eauto|]. destruct IH as (c & Ht). destruct (decide (t' = t)) as [->|Hne].
      + destruct (step_inv _ _ _ _ _ _ Hs Ht) as (w1 & st1 & D & L & Htr & _ & _ & _ & _ & _ & _ & _ & _ & Hth).
        assert (Hc : c <> []). { intros ->. destruct (I_adj_inv _ _ _ Hr _ _ Ht) as [_ Ha]. cbn in Ha. discriminate. }
        destruct (trans_above _ _ _ _ _ _ _ _ Htr Hc) as [(b' & ->)|[(o & ->)|(? & ? & ? & ? & ? & ? & ? & _)]]; [| |discriminate].
        * exists (D ++ b'). rewrite Hth, list_lookup_insert by (eapply lookup_lt_Some; eauto). rewrite app_assoc. reflexivity.
        * exfalso. eapply (Hn eq_refl). exact Ht.
      + destruct (step_trans _ _ _ _ _ Hs) as (st0 & w1 & st1 & Ht0 & _).
        destruct (step_inv _ _ _ _ _ _ Hs Ht0) as (w2 & st2 & D & L & Htr & _ & _ & _ & _ & _ & _ & _ & _ & Hth).
        exists c. rewrite Hth, list_lookup_insert_ne by auto. exact Ht. }
  destruct Hgo as [Hr (c & Hc)]. split; [auto|]. exists c. split; [|auto].
  intros ->. destruct (I_adj_inv _ _ _ Hr _ _ Hc) as [_ Ha]. cbn in Ha. discriminate.
Qed.

(** The stack of thread [t] has [n] frames and a result on top. *)
Definition back (t : tid) (n : nat) (w : world) : option out :=
  match w_thr w !! t with
  | Some (FRet o :: r) => if Nat.eqb (length r) n then Some o else None
  | _ => None
  end.
(** Follow the schedule, but not beyond the return of the call. *)
Fixpoint walk (e : env) (t : tid) (n : nat) (sc : sched) (w : world) : option world :=
  match sc with
  | [] => Some w
  | (t', f) :: sc =>
      if Nat.eqb t' t && match back t n w with Some _ => true | None => false end then walk e t n sc w
      else match step e w t' f with SOk w' => walk e t n sc w' | SBlocked | SDone => walk e t n sc w | SUB _ => None end
  end.
Definition call_test (e : env) (ps : list prog) (sc0 : sched) (t : tid) (o : op) (sc : sched) (P : world -> world -> out -> bool) : bool :=
  match run e (init ps) sc0 with
  | inr _ => false
  | inl w0 =>
      match w_thr w0 !! t, sc with
      | Some (FProg (Do o' k) :: st), (_, f) :: sc =>
          bool_decide (o' = o) &&
          match step e w0 t f with
          | SOk w1 => match walk e t (S (length st)) sc w1 with
                      | Some w => match back t (S (length st)) w with Some r => P w0 w r | None => false end
                      | None => false
                      end
          | _ => false
          end
      | _, _ => false
      end
  end.
Lemma walk_in_call e t op k st sc w0 w w' : in_call e t op k st w0 w -> walk e t (S (length st)) sc w = Some w' ->
  in_call e t op k st w0 w'.
Proof.
  revert w. induction sc as [|[t' f] sc IH]; intros w H Hw; cbn in Hw; [simplify_eq; auto|].
  destruct (Nat.eqb t' t && _) eqn:Hb; [eauto|]. destruct (step e w t' f) as [w1| | |] eqn:Hs; [|eauto|eauto|discriminate].
  eapply IH; [|exact Hw]. eapply C_step; [exact H| |exact Hs]. intros -> o Ho. rewrite Nat.eqb_refl in Hb. cbn in Hb.
  unfold back in Hb. rewrite Ho in Hb. cbn in Hb. rewrite Nat.eqb_refl in Hb. discriminate.
Qed.
Lemma call_by_run e ps sc0 t o sc P : call_test e ps sc0 t o sc P = true -> (forall pos, o <> ODeref pos) ->
  exists k st w0 w r, reachable e ps w0 /\ in_call e t o k st w0 w /\ returned t k st w r /\ P w0 w r = true.
Proof.
  unfold call_test. intros H Hnd. destruct (run e (init ps) sc0) as [w0|] eqn:Hr; [|discriminate].
  destruct (w_thr w0 !! t) as [[|[] st]|] eqn:Ht; try discriminate. destruct p as [|o' k]; try discriminate.
  destruct sc as [|[t' f] sc]; [discriminate|]. apply andb_true_iff in H as [Ho H]. apply bool_decide_eq_true in Ho. subst o'.
  destruct (step e w0 t f) as [w1| | |] eqn:Hs; try discriminate. destruct (walk e t (S (length st)) sc w1) as [w|] eqn:Hw; [|discriminate].
  destruct (back t (S (length st)) w) as [r|] eqn:Hb; [|discriminate].
  assert (Hr0 : reachable e ps w0) by (exists sc0; exact Hr).
  assert (Hc : in_call e t o k st w0 w) by (eapply walk_in_call; [eapply C_start; eauto|exact Hw]).
  exists k, st, w0, w, r. split; [auto|]. split; [auto|]. split; [|auto].
  destruct (in_call_stack _ _ _ _ _ _ _ _ Hr0 Hnd Hc) as (_ & c & Hcc & Hst). unfold returned. rewrite Hst.
  unfold back in Hb. rewrite Hst in Hb. destruct c as [|f0 c]; [congruence|]. cbn in Hb.
  destruct f0; try discriminate. destruct (Nat.eqb _ _) eqn:Hl; [|discriminate]. apply Nat.eqb_eq in Hl. injection Hb as ->.
  rewrite app_length in Hl. cbn in Hl. destruct c as [|]; [reflexivity|cbn in Hl; lia].
Qed.
Ltac by_call sc0 sc := apply (call_by_run _ _ sc0 _ _ sc); [vm_compute; reflexivity|intros; discriminate].

(** The events since a state. *)
Definition news (w0 w : world) : list event := take (length (w_log w) - length (w_log w0)) (w_log w).
