(** * Tidy clients never meet undefined behaviour: the invariant *)
From Verif Require Import Reach InvSlot InvDeath InvRem InvUse InvFault InvSig InvOp.
From Verif Require Export TidyAll.

Lemma trans_move e w t st w1 st1 s1 s2 : trans e w t st w1 st1 -> EMoveSig s1 s2 ∈ w_log w1 -> EMoveSig s1 s2 ∈ w_log w \/ exists r, st = FWrite s1 KMove :: r.
Proof.
  assert (Hv : forall v x o, exec_vop w t v = VOk x o (EfLog (EMoveSig s1 s2)) -> False).
  { intros v x o H. destruct (vop_ev _ _ _ _ _ _ H) as [(l & E & _)|[(l & E & _)|[(l & E & _)|[(l & E & _)|(l & E & _)]]]]; discriminate. }
  intros Htr. destruct Htr; wcbn; autorewrite with wsimp; auto; rewrite ?elem_of_cons; try (intros [H'|H']; [|left; exact H']; discriminate).
  - intros [<-|H']; [|auto]. exfalso. eauto.
  - intros [<-|H']; [|auto]. exfalso. eauto.
  - intros [H'|H']; [discriminate|]. left. unfold clear_conn in H'. destruct r as [l|u]; [|exact H']. destruct (get_ref w (RSlot l)) as [i0|]; [|exact H'].
    destruct (im_conn i0); [|exact H']. cbn in H'. apply elem_of_cons in H' as [H'|H']; [discriminate|exact H'].
  - intros [[= -> ->]|H']; eauto.
Qed.

Section tidy.
Context (e : env) (G : list thing) (caps : callable -> list thing) (ps : list prog).
Notation tidy := (tidy e G caps).
Notation owners := (thing -> option (tid * nat)).
Notation stk := (stk e G caps).
Notation fine := (fine e G caps).
Notation caps_ok := (caps_ok caps).
Notation world_ok := (world_ok G caps).
Notation J := (J e G caps ps).
Hypothesis Henv : tidy_env e G caps.

Lemma fine_dtors (O : owners) w wd t ds st : w_slots wd = w_slots w -> world_ok O w -> fine O w t st -> fine O w t (flat_map (dtor_frames e wd) ds ++ st).
Proof.
  intros Hd Hw Hf. induction ds as [|x ds IH]; [exact Hf|]. cbn. rewrite <- app_assoc. unfold dtor_frames at 1. destruct x as [l|o]; cbn [dtor_prog].
  - rewrite Hd. destruct (w_slots w !! l) as [r|] eqn:El; [|exact IH]. destruct (e_dtor e (im_c (sl_impl r))) as [p|] eqn:Ed; [|exact IH]. cbn [app].
    eapply (F_prog _ _ _ _ _ _ _ _ _ Destructor (caps (im_c (sl_impl r)))); [apply S_dtor; exact IH|reflexivity| |].
    + intros th Hth. destruct (j_slots _ _ _ _ Hw l r El th Hth) as [H1 H2]. destruct Henv as (Hc & _). specialize (Hc (im_c (sl_impl r))).
      rewrite Forall_forall in Hc. rewrite (Hc th Hth). auto.
    + destruct Henv as (_ & _ & _ & _ & Hdt & _). apply Hdt. exact Ed.
  - destruct (e_odtor e o) as [p|] eqn:Ed; [|exact IH]. cbn [app].
    eapply (F_prog _ _ _ _ _ _ _ _ _ Destructor []); [apply S_dtor; exact IH|reflexivity| |].
    + intros th Hth. inversion Hth.
    + destruct Henv as (_ & _ & _ & _ & _ & Hdt). eapply Hdt. exact Ed.
Qed.

Theorem J_step O w t fail w' : J O w -> step e w t fail = SOk w' -> exists O', J O' w'.
Proof.
  intros HJ Hs. pose proof (j_reach _ _ _ _ _ _ HJ) as Hr. pose proof (reachable_step _ _ _ _ _ _ Hr Hs) as Hr'.
  destruct (step_trans _ _ _ _ _ Hs) as (st & w1 & st1 & Ht & Htr & Hw' & _).
  destruct (reap_spec e w w1 t st1) as (D & L & HD & HL & Er & ED & _). rewrite Er in Hw'.
  assert (E1 : w_sigs w' = w_sigs w1) by (rewrite Hw'; reflexivity). assert (E2 : w_vars w' = w_vars w1) by (rewrite Hw'; reflexivity).
  assert (E3 : w_slots w' = w_slots w1) by (rewrite Hw'; reflexivity). assert (E4 : w_vecs w' = w_vecs w1) by (rewrite Hw'; reflexivity).
  assert (E5 : w_log w' = L ++ w_log w1) by (rewrite Hw'; reflexivity).
  assert (E6 : w_thr w' = <[t := D ++ st1]> (w_thr w)) by (rewrite Hw'; wcbn; rewrite (trans_thr _ _ _ _ _ _ Htr); reflexivity).
  destruct (trans_log_app _ _ _ _ _ _ Htr) as [new Hnew].
  assert (Hsl : same_slots w w1).
  { intros l r H. rewrite <- E3. eapply (same_slots_app e ps w w' (L ++ new)); eauto; [rewrite E5, Hnew, app_assoc; reflexivity|]. rewrite E3. eapply trans_slots_len; eauto. }
  destruct (trans_stepped e G caps ps Henv O w w1 t st st1 HJ Ht Htr Hsl) as (O' & h & HA & HK & Hf1 & Hw1 & Hsig & Hnewsl).
  assert (Hmv : forall s1 s2, EMoveSig s1 s2 ∉ w_log w').
  { intros s1 s2 Hin. rewrite E5 in Hin. apply elem_of_app in Hin as [Hin|Hin].
    - unfold deadish in HL. rewrite Forall_forall in HL. destruct (HL _ Hin) as [[? ?]|[? ?]]; discriminate.
    - destruct (trans_move _ _ _ _ _ _ _ _ Htr Hin) as [Hi|(r & ->)]; [exact (j_moved _ _ _ _ _ _ HJ _ _ Hi)|].
      pose proof (j_thr _ _ _ _ _ _ HJ _ _ Ht) as Hf. inversion Hf; subst. contradiction. }
  assert (HT1 : sigs_there w1).
  { intros l r Hl. rewrite <- E3 in Hl. rewrite <- E1. exact (sigs_there_reach e ps w' Hr' l r Hl). }
  assert (Hth : forall t0 st0, w_thr w' !! t0 = Some st0 -> (t0 <> t /\ w_thr w !! t0 = Some st0 /\ fine O' w1 t0 st0) \/ (t0 = t /\ st0 = D ++ st1)).
  { intros t0 st0 Ht0. rewrite E6 in Ht0. apply list_lookup_insert_Some in Ht0 as [(-> & <- & _)|[Hn Ht0]]; [right; auto|left].
    split; [auto|]. split; [exact Ht0|].
    apply (proj2 (mono e G caps O O' w w1 t t0 h HA HK Hsl (sigs_there_reach e ps w Hr) (fun k => trans_there _ _ _ _ _ _ k Htr))); [exact (j_thr _ _ _ _ _ _ HJ _ _ Ht0)|auto|].
    intros s eid v a Hin. eapply emit_vec; [exact Hr|exact Ht|exact Htr|exact Ht0|exact Hin]. }
  exists O'. constructor; auto.
  - eapply world_eq; eauto.
  - intros l r Hal Hl.
    assert (Hal1 : slot_alive (mid w1 t st1) l = true).
    { rewrite Hw' in Hal. rewrite <- Hal. symmetry.
      replace (w_set_stack w1 t (D ++ st1)) with (w_set_stack (mid w1 t st1) t (D ++ st1)).
      - apply alive_reap; [|exact HD]. wcbn. apply list_lookup_insert. rewrite (trans_thr _ _ _ _ _ _ Htr). eapply lookup_lt_Some; eauto.
      - unfold mid, w_set_stack. wcbn. f_equal. apply list_insert_insert. }
    assert (Hg : signal_lives w1 (sl_sig r) -> signal_lives w' (sl_sig r)) by (unfold signal_lives; rewrite E1; auto). apply Hg.
    destruct (trans_alive e ps w t st w1 st1 l Hr Ht Htr Hal1) as [Hold|[-> _]]; [|rewrite E3 in Hl; apply Hnewsl; exact Hl].
    apply slot_alive_iff in Hal1 as [(s & rs & v & Hs1 & Ha & Hv & Hin)|(t0 & x & f & Hx & Hf & Hk)].
    + assert (sl_sig r = s) as ->; [|exists rs; auto]. eapply (list_home e ps w' Hr' Hmv); [|exact Hl]. unfold cur. rewrite E1. wcbn_in Hs1. rewrite Hs1, Hv. unfold vec_of. rewrite E4. exact Hin.
    + wcbn_in Hx. rewrite (trans_thr _ _ _ _ _ _ Htr) in Hx.
      assert (Hfx : fine O' w1 t0 x /\ exists y, w_thr w' !! t0 = Some (y ++ x)).
      { apply list_lookup_insert_Some in Hx as [(<- & <- & Hlt)|[Hn Hx]].
        - split; [exact Hf1|]. exists D. rewrite E6. apply list_lookup_insert. exact Hlt.
        - assert (Hx' : w_thr w' !! t0 = Some x) by (rewrite E6, list_lookup_insert_ne by auto; exact Hx). split; [|exists []; exact Hx'].
          destruct (Hth _ _ Hx') as [(_ & _ & H)|[-> _]]; [exact H|contradiction]. }
      destruct Hfx as [Hfx (y & Hy)]. apply elem_of_list_split in Hf as (x1 & x2 & Ex).
      destruct (proj2 (fine_frames e G caps O' w1 t0) x Hfx x1 f x2 Ex) as (Hp & He & _).
      assert (Hc : (exists s eid v a, f = FEmit s eid v a /\ l ∈ vec_of w1 v) \/ frame_pins l f = true).
      { destruct f; auto. left. cbn in Hk. apply bool_decide_eq_true in Hk. eauto 10. }
      destruct Hc as [(s & eid & v & a & -> & Hin)|Hc].
      * assert (sl_sig r = s) as ->; [|destruct (He _ _ _ _ eq_refl) as [H _]; exact H].
        eapply (emit_home e ps w' Hr' Hmv); [exact Hy| |unfold vec_of; rewrite E4; exact Hin|exact Hl]. rewrite Ex. apply elem_of_app. right. apply elem_of_app. right. apply elem_of_list_here.
      * destruct (Hp l Hc) as (r0 & Hr0 & Hb). rewrite E3 in Hl. rewrite Hl in Hr0. injection Hr0 as <-.
        assert (Hlw : exists rw, w_slots w !! l = Some rw /\ sl_sig rw = sl_sig r).
        { destruct (w_slots w !! l) as [rw|] eqn:Erw.
          - destruct (Hsl l rw Erw) as (r' & Hr1 & Es & _). rewrite Hl in Hr1. injection Hr1 as <-. exists rw. auto.
          - exfalso. apply lookup_ge_None in Erw. pose proof (proj2 (I_alive_inv _ _ _ Hr) l Hold). lia. }
        destruct Hlw as (rw & Hrw & Es). pose proof (j_alive _ _ _ _ _ _ HJ l rw Hold Hrw) as Hlv. rewrite Es in Hlv.
        destruct (Hsig _ Hlv) as [H|(k & r' & Est & Ho)]; [exact H|]. exfalso.
        destruct Hb as [Hb|(h' & Hh' & Hb)]; [congruence|]. rewrite Hb in Ho. injection Ho as -> ->.
        assert (Hxt : x = st1).
        { apply list_lookup_insert_Some in Hx as [(_ & <- & _)|[Hn _]]; [reflexivity|congruence]. }
        rewrite Hxt, Est in Ex. destruct x1 as [|f1 x1]; cbn in Ex; injection Ex as E7 E8; [subst f; discriminate Hc|].
        destruct x1 as [|f2 x1]; cbn in E8; injection E8 as E9 E10; [subst f; discriminate Hc|]. subst r'. rewrite app_length in Hh'. cbn in Hh'. lia.
  - intros t0 st0 Ht0. destruct (Hth _ _ Ht0) as [(_ & _ & H)|[-> ->]].
    + eapply fine_eq; [..|exact H]; eauto.
    + eapply fine_eq; [exact E1|exact E2|exact E3|exact E4|exact HT1|]. rewrite ED. apply fine_dtors; [reflexivity|exact Hw1|exact Hf1].
Qed.
End tidy.
