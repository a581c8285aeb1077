(** * Signals without a result *)
From Verif Require Export Emission Examples.

(** A slot of such a signal gives nothing. *)
Lemma void_slot_ret e ps w : e_void e = true -> reachable e ps w ->
  log_all (fun ev _ => match ev with
    | ERet _ _ _ o => o = OutOpt None \/ exists x, o = OutExn x
    | _ => True end) (w_log w).
Proof.
  intros Hv. apply log_all_hist; [intros []; cbn; auto; discriminate|]. clear w.
  intros w t st w' st' ev pre Hr Ht Htr Hlg. destruct ev; auto. logs_inv Htr Hlg.
  all: match goal with H : wrap _ _ = Some _ |- _ => unfold wrap in H end; repeat case_match; simplify_eq; eauto; congruence.
Qed.
Lemma void_deref e ps w : e_void e = true -> reachable e ps w ->
  log_all (fun ev _ => match ev with
    | EDeref _ _ _ _ o => o = OutOpt None \/ exists x, o = OutExn x
    | _ => True end) (w_log w).
Proof.
  intros Hv. apply log_all_hist; [intros []; cbn; auto; discriminate|]. clear w.
  intros w t st w' st' ev pre Hr Ht Htr Hlg. destruct ev; auto. logs_inv Htr Hlg.
  pose proof (I_em_inv _ _ _ Hr _ _ Ht) as [Hem _]. cbn in Hem.
  destruct Hem as (evs & _ & [(? & _ & -> & _)|(c & start & Hd & _)]); [auto|].
  eassert (Hin : ERet _ (RSlot l) (Some eid) r ∈ did eid (w_log w)) by (rewrite Hd; constructor).
  apply elem_of_list_filter in Hin as [_ Hin]. apply elem_of_list_split in Hin as (a & b & Hl).
  exact (void_slot_ret _ _ _ Hv Hr _ _ _ Hl).
Qed.
Lemma answers_in eid log a : a ∈ answers eid log -> exists t pos l, EDeref t eid pos l (snd a) ∈ log.
Proof.
  induction log as [|ev log IH]; cbn [answers]; [by intros ?%elem_of_nil|].
  assert (Hc : a ∈ answers eid log -> exists t pos l, EDeref t eid pos l (snd a) ∈ ev :: log).
  { intros Ha. destruct (IH Ha) as (t & pos & l & Hin). exists t, pos, l. by constructor. }
  destruct ev; auto. case_decide as Hd; [|auto]. rewrite elem_of_app, elem_of_list_singleton. intros [Ha| ->]; [auto|].
  subst. cbn. eexists _, _, _. constructor.
Qed.
Lemma void_emission e ps w t eid s a xs o : e_void e = true -> reachable e ps w -> began (w_log w) t eid s a xs None ->
  EEmitRet t eid o ∈ w_log w -> o = OutOpt None \/ exists x, o = OutExn x.
Proof.
  intros Hv Hr Hb Hin. destruct (default_result _ _ _ _ _ _ _ _ _ Hr Hb Hin) as [(-> & _)|(n & l & x & ans0 & -> & _)]; [left|eauto].
  f_equal. unfold last_value.
  assert (Hall : Forall (fun a => snd a = OutOpt None \/ exists x, snd a = OutExn x) (answers eid (w_log w))).
  { apply Forall_forall. intros y Hy. apply answers_in in Hy as (t' & pos & l & Hy). apply elem_of_list_split in Hy as (p & q & Hl).
    exact (void_deref _ _ _ Hv Hr _ _ _ Hl). }
  clear -Hall. induction Hall as [|y ys Hy _ IH]; [done|]. cbn [fold_left]. destruct Hy as [->|[x ->]]; exact IH.
Qed.

(** Two slots without a result, the second of which throws when it is called again. *)
Definition xv_env : env :=
  Env true (fun _ => true) (fun _ a b => Ret (OutBool (Nat.eqb a b)))
    (fun r c args => if Nat.eqb (c_fv c) 2 then Do (OSelfGet r) (fun o => match o with
       | OutZ 0%Z => Do (OSelfSet r 1%Z) (fun _ => Ret OutUnit) | _ => Ret (OutExn (UserExn 4)) end) else Ret OutUnit)
    (fun _ _ => false) (fun _ => 0%Z) (fun _ => None) (fun k n => Ret (OutOpt None)).
Definition xv_prog := seqp [ONewSignal None; OConnect 0 (SrcFn (fn 1)) false; OConnect 0 (SrcFn (fn 2)) false; OEmit 0 []; OEmit 0 []] OutUnit.
Lemma ex_C50 : exists w, reachable xv_env [xv_prog] w /\
  occurs [EEmit 0 0 0 [] [0; 1]; ERet 0 (RSlot 0) (Some 0) (OutOpt None); ERet 0 (RSlot 1) (Some 0) (OutOpt None); EEmitRet 0 0 (OutOpt None);
          EEmit 0 1 0 [] [0; 1]; EEmitRet 0 1 (OutExn (UserExn 4))] (rev (w_log w)) = true.
Proof. by_run xv_env [xv_prog] (one 200). Qed.
