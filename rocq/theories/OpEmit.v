(** * What emissions and calls of slot objects return and what they themselves did *)
From Verif Require Export OpOwn.

Lemma wrap_wrapped e o o' : wrap e o = Some o' -> wrapped e o o'.
Proof.
  unfold wrap, wrapped. destruct o; try discriminate; destruct (e_void e); try discriminate; intros [= <-].
  - right. right. auto.
  - right. left. eexists. split; [auto|]. split; reflexivity.
  - left. eexists. split; reflexivity.
  - left. eexists. split; reflexivity.
Qed.
Lemma clear_conn_log w r : w_log (clear_conn w r) = w_log w \/ exists l, r = RSlot l /\ w_log (clear_conn w r) = EFlag l :: w_log w.
Proof.
  unfold clear_conn. destruct r as [l|u]; cbn; [|auto]. destruct (w_slots w !! l) as [i|]; cbn; [|auto]. destruct (im_conn _); cbn; eauto.
Qed.
Lemma log_two w w' a b (new : list event) : w_log w' = a :: b :: w_log w -> w_log w' = new ++ w_log w -> new = [a; b].
Proof. intros H1 H2. rewrite H1 in H2. apply (app_inv_tail _ [a; b] new) in H2. auto. Qed.

(** ** signal::operator() *)
Section emit.
  Context (e : env) (ps : list prog) (t : tid) (s : sid) (args : list arg) (k : out -> prog) (st : list frame) (w0 : world).
  Inductive emit_ph : list frame -> list event -> Prop :=
  | EP_lock : emit_ph [FLock s (KRead args)] []
  | EP_write : emit_ph [FWrite s (KRead args)] []
  | EP_emit eid v a xs m : emission_deeds e t eid m -> emit_ph [FEmit s eid v a] (m ++ [EEmit t eid s args xs])
  | EP_slot l g a pin eid start k' pos v a' xs m : g <> SRun -> emission_deeds e t eid m ->
      emit_ph [FSlot (RSlot l) g a pin (Some eid) start; FDeref k' pos l; FEmit s eid v a'] (m ++ [EEmit t eid s args xs])
  | EP_run l a pin eid start k' pos v a' xs m c ca : emission_deeds e t eid m ->
      emit_ph [FSlot (RSlot l) SRun a pin (Some eid) start; FDeref k' pos l; FEmit s eid v a']
        (ECall t (RSlot l) (Some eid) c ca start :: m ++ [EEmit t eid s args xs])
  | EP_back l a pin eid start k' pos v a' xs m c ca o : emission_deeds e t eid m -> may_ret (e_body e (RSlot l) c ca) o ->
      emit_ph [FRet o; FSlot (RSlot l) SRun a pin (Some eid) start; FDeref k' pos l; FEmit s eid v a']
        (ECall t (RSlot l) (Some eid) c ca start :: m ++ [EEmit t eid s args xs])
  | EP_got l r a eid k' pos v a' xs m m' : emission_deeds e t eid (EDeref t eid pos l r :: m') -> m = m' ++ [EEmit t eid s args xs] ->
      emit_ph [FRet (OutCall r a); FDeref k' pos l; FEmit s eid v a'] m
  | EP_fin o eid v a xs m : emission_deeds e t eid m -> emit_ph [FRet o; FEmit s eid v a] (m ++ [EEmit t eid s args xs])
  | EP_done o eid xs m : emission_deeds e t eid m -> emit_ph [FRet o] (EEmitRet t eid o :: m ++ [EEmit t eid s args xs]).
  Definition emit_good (c : list frame) (evs : list event) (o : out) : Prop :=
    match c, evs with
    | FEmit _ _ _ _ :: _, _ => True
    | FSlot (RSlot l) SRun _ _ _ _ :: _, ECall _ _ _ c ca _ :: _ => may_ret (e_body e (RSlot l) c ca) o
    | _, _ => False
    end.
  Lemma emit_nc c evs f : emit_ph c evs -> f ∈ c -> client_frame f = false.
  Proof. intros Hp Hf. destruct Hp; rewrite ?elem_of_cons in Hf; destruct_or?; subst; auto; inversion Hf. Qed.
  Lemma emit_start w' st' new : reachable e ps w0 -> trans e w0 t (FProg (Do (OEmit s args) k) :: st) w' st' -> w_log w' = new ++ w_log w0 ->
    exists b c, st' = b ++ c ++ FWait k :: st /\ emit_ph c new /\ (b = [] \/ exists p, b = [FProg p] /\ forall o, may_ret p o -> emit_good c new o) /\ deeds new = new.
  Proof.
    intros Hr Htr Hnew. inversion Htr; subst; try (match goal with H : can_oom _ |- _ => destruct H end).
    - match goal with H : begins _ _ _ _ _ |- _ => inversion H; subst end. apply log_same in Hnew; [|reflexivity]. subst new.
      eexists [], [_]. split; [reflexivity|]. split; [constructor|]. auto.
    - exfalso. match goal with H : get_sig _ _ = Some _, H2 : sg_blocked _ = true |- _ => apply get_sig_Some in H as [H _]; rewrite (never_blocked _ _ _ _ _ Hr H) in H2; discriminate end.
  Qed.
  Lemma emit_step w c evs w' st' new : reachable e ps w -> w_thr w !! t = Some (c ++ FWait k :: st) -> emit_ph c evs -> (forall o, c <> [FRet o]) ->
    trans e w t (c ++ FWait k :: st) w' st' -> w_log w' = new ++ w_log w ->
    exists b c', st' = b ++ c' ++ FWait k :: st /\ emit_ph c' (new ++ evs) /\
      (b = [] \/ exists p, b = [FProg p] /\ forall o, may_ret p o -> emit_good c' (new ++ evs) o) /\ deeds new = new.
  Proof.
    intros Hr Ht Hph Hn Htr Hnew. inversion Hph; subst; cbn [app] in *.
    - inversion Htr; subst. eapply log_same in Hnew; [|reflexivity]. subst new. eexists [], [_]. split; [reflexivity|]. split; [constructor|]. auto.
    - inversion Htr; subst; try (match goal with H : writes _ |- _ => destruct H end). eapply log_one in Hnew; [|reflexivity]. subst new.
      eexists [_], [_]. split; [reflexivity|]. split; [apply (EP_emit _ _ _ _ []); constructor|]. split; [|reflexivity]. right. eexists. split; [reflexivity|]. intros. exact I.
    - inversion Htr.
    - inversion Htr; subst.
      + eapply log_one in Hnew; [|reflexivity]. subst new. eexists [], [_; _; _]. split; [reflexivity|]. split; [|auto].
        eapply (EP_got _ _ _ _ _ _ _ _ xs _ (_ :: m)); [|reflexivity]. eapply (ED_skip _ _ _ _ _ _ []); auto.
      + destruct (clear_conn_log w (RSlot l)) as [Hcl|(l' & [= <-] & Hcl)].
        * eapply log_one in Hnew; [|cbn [w_log w_add_log]; rewrite Hcl; reflexivity]. subst new. eexists [], [_; _; _]. split; [reflexivity|]. split; [|auto].
          eapply (EP_got _ _ _ _ _ _ _ _ xs _ (_ :: m)); [|reflexivity]. eapply (ED_skip _ _ _ _ _ _ []); auto.
        * eapply log_two in Hnew; [|cbn [w_log w_add_log]; rewrite Hcl; reflexivity]. subst new. eexists [], [_; _; _]. split; [reflexivity|]. split; [|auto].
          eapply (EP_got _ _ _ _ _ _ _ _ xs _ (_ :: _ :: m)); [|reflexivity]. eapply (ED_skip _ _ _ _ _ _ [_]); auto.
      + eapply log_same in Hnew; [|reflexivity]. subst new. eexists [], [_; _; _]. split; [reflexivity|]. split; [|auto]. constructor; [|auto].
        match goal with H : advances _ _ _ _ _ _ _ |- _ => inversion H; discriminate end.
      + eapply log_one in Hnew; [|reflexivity]. subst new. eexists [_], [_; _; _]. split; [reflexivity|]. split; [constructor; auto|].
        split; [|reflexivity]. right. eexists. split; [reflexivity|]. intros o Ho. exact Ho.
    - destruct (I_adj_inv _ _ _ Hr _ _ Ht) as [_ Ha]. cbn in Ha. discriminate Ha.
    - inversion Htr; subst. eapply log_one in Hnew; [|reflexivity]. subst new. eexists [], [_; _; _]. split; [reflexivity|]. split; [|auto].
      eapply (EP_got _ _ _ _ _ _ _ _ xs _ (_ :: _ :: m)); [|reflexivity]. eapply ED_call; [auto|]. eexists. split; [eauto|]. apply wrap_wrapped. auto.
    - inversion Htr; subst. eapply log_one in Hnew; [|reflexivity]. subst new. eexists [_], [_]. split; [reflexivity|]. split; [apply (EP_emit _ _ _ _ (_ :: m')); auto|].
      split; [|reflexivity]. right. eexists. split; [reflexivity|]. intros. exact I.
    - inversion Htr; subst. eapply log_one in Hnew; [|reflexivity]. subst new. eexists [], [_]. split; [reflexivity|]. split; [constructor; auto|]. auto.
    - edestruct Hn; reflexivity.
  Qed.
  Lemma emit_returns w o evs : reachable e ps w0 -> call_log e t (OEmit s args) k st w0 w evs -> returned t k st w o ->
    exists eid xs m, evs = EEmitRet t eid o :: m ++ [EEmit t eid s args xs] /\ emission_deeds e t eid m.
  Proof.
    intros Hr Hc Ho.
    assert (Hp : emit_ph [FRet o] evs).
    { eapply (own_returned e ps t (OEmit s args) k st w0 emit_ph emit_good); eauto using emit_nc, emit_start, emit_step.
      - intros c evs' o' Hg Hp. inversion Hp; subst; cbn in Hg; try (destruct Hg; fail).
        + constructor. auto.
        + destruct g; try (destruct Hg; fail); congruence.
        + constructor; auto.
      - intros s' eid v a c evs' l k' pos start Hp _. inversion Hp; subst. constructor; [discriminate|auto]. }
    inversion Hp; subst. eauto 10.
  Qed.
End emit.

(** ** slot::operator() called by the client *)
Section slotcall.
  Context (e : env) (ps : list prog) (t : tid) (u : uid) (args : list arg) (k : out -> prog) (st : list frame) (w0 : world).
  Inductive scall_ph : list frame -> list event -> Prop :=
  | SP_slot g pin start : g <> SRun -> scall_ph [FSlot (RUser u) g args pin None start; FCallRet] []
  | SP_run a pin start c : scall_ph [FSlot (RUser u) SRun a pin None start; FCallRet] [ECall t (RUser u) None c args start]
  | SP_back a pin start c o : may_ret (e_body e (RUser u) c args) o ->
      scall_ph [FRet o; FSlot (RUser u) SRun a pin None start; FCallRet] [ECall t (RUser u) None c args start]
  | SP_got r a evs : slot_call_deed e t u args r evs -> scall_ph [FRet (OutCall r a); FCallRet] evs
  | SP_done r evs : slot_call_deed e t u args r evs -> scall_ph [FRet r] evs.
  Definition scall_good (c : list frame) (evs : list event) (o : out) : Prop :=
    match c, evs with
    | FSlot _ SRun _ _ _ _ :: _, ECall _ _ _ c ca _ :: _ => may_ret (e_body e (RUser u) c ca) o
    | _, _ => False
    end.
  Lemma scall_nc c evs f : scall_ph c evs -> f ∈ c -> client_frame f = false.
  Proof. intros Hp Hf. destruct Hp; rewrite ?elem_of_cons in Hf; destruct_or?; subst; auto; inversion Hf. Qed.
  Lemma scall_start w' st' new : reachable e ps w0 -> trans e w0 t (FProg (Do (OSlotCall u args) k) :: st) w' st' -> w_log w' = new ++ w_log w0 ->
    exists b c, st' = b ++ c ++ FWait k :: st /\ scall_ph c new /\ (b = [] \/ exists p, b = [FProg p] /\ forall o, may_ret p o -> scall_good c new o) /\ deeds new = new.
  Proof.
    intros Hr Htr Hnew. inversion Htr; subst; try (match goal with H : can_oom _ |- _ => destruct H end); try (match goal with H : begins _ _ _ _ _ |- _ => inversion H; fail end).
    apply log_same in Hnew; [|reflexivity]. subst new. eexists [], [_; _]. split; [reflexivity|]. split; [constructor; discriminate|]. auto.
  Qed.
  Lemma scall_step w c evs w' st' new : reachable e ps w -> w_thr w !! t = Some (c ++ FWait k :: st) -> scall_ph c evs -> (forall o, c <> [FRet o]) ->
    trans e w t (c ++ FWait k :: st) w' st' -> w_log w' = new ++ w_log w ->
    exists b c', st' = b ++ c' ++ FWait k :: st /\ scall_ph c' (new ++ evs) /\
      (b = [] \/ exists p, b = [FProg p] /\ forall o, may_ret p o -> scall_good c' (new ++ evs) o) /\ deeds new = new.
  Proof.
    intros Hr Ht Hph Hn Htr Hnew. inversion Hph; subst; cbn [app] in *.
    - inversion Htr; subst.
      + eapply log_one in Hnew; [|reflexivity]. subst new. eexists [], [_; _]. split; [reflexivity|]. split; [|auto]. constructor. left. eauto.
      + destruct (clear_conn_log w (RUser u)) as [Hcl|(l' & ? & Hcl)]; [|discriminate].
        eapply log_one in Hnew; [|cbn [w_log w_add_log]; rewrite Hcl; reflexivity]. subst new. eexists [], [_; _]. split; [reflexivity|]. split; [|auto]. constructor. left. eauto.
      + eapply log_same in Hnew; [|reflexivity]. subst new. eexists [], [_; _]. split; [reflexivity|]. split; [|auto]. constructor.
        match goal with H : advances _ _ _ _ _ _ _ |- _ => inversion H; discriminate end.
      + eapply log_one in Hnew; [|reflexivity]. subst new. eexists [_], [_; _]. split; [reflexivity|]. split; [constructor; auto|].
        split; [|reflexivity]. right. eexists. split; [reflexivity|]. intros o Ho. exact Ho.
    - destruct (I_adj_inv _ _ _ Hr _ _ Ht) as [_ Ha]. cbn in Ha. discriminate Ha.
    - inversion Htr; subst. eapply log_one in Hnew; [|reflexivity]. subst new. eexists [], [_; _]. split; [reflexivity|]. split; [|auto].
      constructor. right. eexists _, _. split; [reflexivity|]. eexists. split; [eauto|]. apply wrap_wrapped. auto.
    - inversion Htr; subst. eapply log_same in Hnew; [|reflexivity]. subst new. eexists [], [_]. split; [reflexivity|]. split; [constructor; auto|]. auto.
    - edestruct Hn; reflexivity.
  Qed.
  Lemma slotcall_returns w r evs : reachable e ps w0 -> call_log e t (OSlotCall u args) k st w0 w evs -> returned t k st w r ->
    slot_call_deed e t u args r evs.
  Proof.
    intros Hr Hc Ho.
    assert (Hp : scall_ph [FRet r] evs).
    { eapply (own_returned e ps t (OSlotCall u args) k st w0 scall_ph scall_good); eauto using scall_nc, scall_start, scall_step.
      - intros c evs' o' Hg Hp. inversion Hp; subst; cbn in Hg; try (destruct Hg; fail).
        + destruct g; try (destruct Hg; fail); congruence.
        + constructor; auto.
      - intros s' eid v a c evs' l k' pos start Hp _. inversion Hp. }
    inversion Hp; subst; auto.
  Qed.
End slotcall.

(** ** Operations of one step *)
Lemma step_returns e ps t op k st w0 w o evs (P : out -> list event -> Prop) : reachable e ps w0 -> (forall pos, op <> ODeref pos) ->
  (forall w' st', trans e w0 t (FProg (Do op k) :: st) w' st' -> exists r new, st' = FRet r :: FWait k :: st /\ w_log w' = new ++ w_log w0 /\ P r new /\ deeds new = new) ->
  call_log e t op k st w0 w evs -> returned t k st w o -> P o evs.
Proof.
  intros Hr Hnd Hone Hc Ho.
  assert (Hp : exists r, [FRet o] = [FRet r] /\ P r evs).
  { eapply (own_returned e ps t op k st w0 (fun c evs => exists r, c = [FRet r] /\ P r evs) (fun _ _ _ => False)); eauto.
    - intros c evs' f (r & -> & _) Hf. apply elem_of_list_singleton in Hf. subst. reflexivity.
    - intros w' st' new _ Htr Hnew. destruct (Hone _ _ Htr) as (r & new' & -> & Hn & HP & Hd). rewrite Hn in Hnew. apply app_inv_tail in Hnew. subst new'.
      exists [], [FRet r]. split; [reflexivity|]. split; [eauto|]. auto.
    - intros w1 c evs' w' st' new _ _ (r & -> & _) Hn. edestruct Hn; reflexivity.
    - contradiction.
    - intros ? ? ? ? ? ? ? ? ? ? (? & ? & _). discriminate. }
  destruct Hp as (r & [= ->] & HP). exact HP.
Qed.
Lemma selfget_returns e ps t r k st w0 w o evs : reachable e ps w0 -> call_log e t (OSelfGet r) k st w0 w evs -> returned t k st w o ->
  exists z, o = OutZ z /\ evs = [EGet t r z].
Proof.
  intros Hr. apply (step_returns e ps t (OSelfGet r) k st w0 w o evs (fun o evs => exists z, o = OutZ z /\ evs = [EGet t r z])); [auto|discriminate|].
  intros w' st' Htr. inversion Htr; subst; try (match goal with H : can_oom _ |- _ => destruct H end); try (match goal with H : begins _ _ _ _ _ |- _ => inversion H end).
  eexists _, [_]. split; [reflexivity|]. split; [reflexivity|]. split; [eauto|reflexivity].
Qed.
Lemma newsig_returns e ps t c k st w0 w o evs : reachable e ps w0 -> call_log e t (ONewSignal c) k st w0 w evs -> returned t k st w o ->
  (o = OutExn BadAlloc /\ evs = []) \/ (exists s, o = OutId s /\ evs = [ENewSig s c]).
Proof.
  intros Hr. apply (step_returns e ps t (ONewSignal c) k st w0 w o evs (fun o evs => (o = OutExn BadAlloc /\ evs = []) \/ (exists s, o = OutId s /\ evs = [ENewSig s c]))); [auto|discriminate|].
  intros w' st' Htr. inversion Htr; subst; try (match goal with H : begins _ _ _ _ _ |- _ => inversion H end).
  - eexists _, []. split; [reflexivity|]. split; [reflexivity|]. split; [auto|reflexivity].
  - eexists _, [_]. split; [reflexivity|]. split; [reflexivity|]. split; [eauto|reflexivity].
Qed.
Section move.
  Context (e : env) (ps : list prog) (t : tid) (s : sid) (k : out -> prog) (st : list frame) (w0 : world).
  Inductive move_ph : list frame -> list event -> Prop :=
  | MP_lock : move_ph [FLock s KMove] []
  | MP_write : move_ph [FWrite s KMove] []
  | MP_unlock s2 : move_ph [FUnlock s (OutId s2)] [EMoveSig s s2]
  | MP_ret s2 : move_ph [FRet (OutId s2)] [EMoveSig s s2].
  Lemma move_returns w o evs : reachable e ps w0 -> call_log e t (OMoveSignal s) k st w0 w evs -> returned t k st w o ->
    exists s2, o = OutId s2 /\ evs = [EMoveSig s s2].
  Proof.
    intros Hr Hc Ho.
    assert (Hp : move_ph [FRet o] evs).
    { eapply (own_returned e ps t (OMoveSignal s) k st w0 move_ph (fun _ _ _ => False)); eauto.
      - intros c evs' f H Hf. destruct H; apply elem_of_list_singleton in Hf; subst; reflexivity.
      - intros w' st' new _ Htr Hnew. inversion Htr; subst; try (match goal with H : can_oom _ |- _ => destruct H end).
        match goal with H : begins _ _ _ _ _ |- _ => inversion H; subst end. apply log_same in Hnew; [|reflexivity]. subst new.
        eexists [], [_]. split; [reflexivity|]. split; [constructor|]. auto.
      - intros w1 c evs' w' st' new _ _ Hph Hn Htr Hnew. inversion Hph; subst; cbn [app] in *; try (edestruct Hn; reflexivity); inversion Htr; subst; try (match goal with H : writes _ |- _ => destruct H end).
        + eapply log_same in Hnew; [|reflexivity]. subst new. eexists [], [_]. split; [reflexivity|]. split; [constructor|]. auto.
        + eapply log_one in Hnew; [|reflexivity]. subst new. eexists [], [_]. split; [reflexivity|]. split; [constructor|]. auto.
        + eapply log_same in Hnew; [|reflexivity]. subst new. eexists [], [_]. split; [reflexivity|]. split; [constructor|]. auto.
      - contradiction.
      - intros ? ? ? ? ? ? ? ? ? ? H. inversion H. }
    inversion Hp; subst. eauto.
  Qed.
End move.
