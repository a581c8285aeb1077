(** * The properties of optional<T>, proved from the relation with abstract values *)
From Verif Require Export OptProof.
Set Default Goal Selector "!".

Lemma A_init f oracle : (f = true -> Forall (eq TFine) oracle) -> A f (ow0 oracle) [] [].
Proof. intros Hf. constructor; cbn; try done; constructor. Qed.

Lemma run_A mv f w vs os rs w' : A f w vs [] -> orun mv w os = Some (rs, w') ->
  exists vs', opt_trace mv vs os rs vs' /\ A f w' vs' [] /\
    (f = true -> Forall (fun o => forall i, o <> OEmplaceX i) os -> Forall (fun r => r <> RetX XT) rs).
Proof.
  revert w vs rs. induction os as [|o os IH]; intros w vs rs HA Hr; cbn in Hr.
  { simplify_eq. exists vs. split; [constructor|]. split; [done|]. intros; constructor. }
  pose proof (op_ok mv f w vs o HA) as Hs. unfold stp in Hs. destruct (oexec mv o w) as [v w1|x w1|]; [| |done].
  - destruct (orun mv w1 os) as [[rs1 w2]|] eqn:E; [|done]. simplify_eq.
    destruct Hs as (vs1 & Ho & HA1). destruct (IH _ _ _ HA1 E) as (vs2 & Ht & HA2 & Hn).
    exists vs2. split; [by econstructor|]. split; [done|]. intros Hf Hos. apply Forall_cons in Hos as [_ Hos]. constructor; [done|auto].
  - destruct (orun mv w1 os) as [[rs1 w2]|] eqn:E; [|done]. simplify_eq. destruct x; cbn in Hs.
    + destruct Hs as (Hf & vs1 & Ho & HA1). destruct (IH _ _ _ HA1 E) as (vs2 & Ht & HA2 & Hn).
      exists vs2. split; [by eapply OT_throw|]. split; [done|]. intros -> Hos. apply Forall_cons in Hos as [H1 Hos].
      exfalso. destruct Hf as [?|[i ->]]; [done|by eapply H1].
    + destruct Hs as (Ho & HA1). destruct (IH _ _ _ HA1 E) as (vs2 & Ht & HA2 & Hn).
      exists vs2. split; [by eapply OT_access|]. split; [done|]. intros Hf Hos. apply Forall_cons in Hos as [_ Hos]. constructor; [done|auto].
Qed.

Theorem opt_behaviour mv oracle os rs w :
  orun mv (ow0 oracle) os = Some (rs, w) -> exists vs, opt_trace mv [] os rs vs.
Proof.
  intros Hr. destruct (run_A mv false _ [] _ _ _ (A_init false oracle ltac:(done)) Hr) as (vs & Ht & _). eauto.
Qed.
Theorem opt_no_throw mv oracle os rs w :
  no_throw oracle os -> orun mv (ow0 oracle) os = Some (rs, w) ->
  Forall (fun r => r <> RetX XT) rs.
Proof.
  intros [Ho Hos] Hr. destruct (run_A mv true _ [] _ _ _ (A_init true oracle ltac:(done)) Hr) as (vs & _ & _ & Hn). auto.
Qed.
Lemma opt_undef_gen mv f w vs os : A f w vs [] -> orun mv w os = None ->
  exists os1 o os2 rs vs', os = os1 ++ o :: os2 /\ opt_trace mv vs os1 rs vs' /\ ospec mv vs' o = AUndef.
Proof.
  revert w vs. induction os as [|o os IH]; intros w vs HA Hr; cbn in Hr; [done|].
  pose proof (op_ok mv f w vs o HA) as Hs. unfold stp in Hs. destruct (oexec mv o w) as [v w1|x w1|].
  - destruct (orun mv w1 os) as [[rs1 w2]|] eqn:E; [done|].
    destruct Hs as (vs1 & Ho & HA1). destruct (IH _ _ HA1 E) as (os1 & o' & os2 & rs & vs' & -> & Ht & Hu).
    exists (o :: os1), o', os2, (RetV v :: rs), vs'. split; [done|]. split; [by econstructor|done].
  - destruct (orun mv w1 os) as [[rs1 w2]|] eqn:E; [done|]. destruct x; cbn in Hs.
    + destruct Hs as (Hf & vs1 & Ho & HA1). destruct (IH _ _ HA1 E) as (os1 & o' & os2 & rs & vs' & -> & Ht & Hu).
      exists (o :: os1), o', os2, (RetX XT :: rs), vs'. split; [done|]. split; [by eapply OT_throw|done].
    + destruct Hs as (Ho & HA1). destruct (IH _ _ HA1 E) as (os1 & o' & os2 & rs & vs' & -> & Ht & Hu).
      exists (o :: os1), o', os2, (RetX XAccess :: rs), vs'. split; [done|]. split; [by eapply OT_access|done].
  - exists [], o, os, [], vs. split; [done|]. split; [constructor|done].
Qed.
Theorem opt_undefined mv oracle os :
  orun mv (ow0 oracle) os = None ->
  exists os1 o os2 rs vs, os = os1 ++ o :: os2 /\ opt_trace mv [] os1 rs vs /\ ospec mv vs o = AUndef.
Proof. apply (opt_undef_gen mv false). by apply A_init. Qed.
(** Without exceptions everything is determined, undefined behaviour included. *)
Lemma opt_exact_gen mv w vs os rs vs' : A true w vs [] -> Forall (fun o => forall i, o <> OEmplaceX i) os ->
  Forall (fun r => r <> RetX XT) rs -> opt_trace mv vs os rs vs' -> exists w', orun mv w os = Some (rs, w') /\ A true w' vs' [].
Proof.
  intros HA Hos Hrs Ht. revert w HA. induction Ht as [vs|vs o os v rs vs1 vs' Ho Ht IH|vs o os rs vs' Ho Ht IH|]; intros w HA.
  - exists w. done.
  - apply Forall_cons in Hos as [Ho1 Hos], Hrs as [_ Hrs].
    pose proof (op_ok mv true w vs o HA) as Hs. unfold stp, okp, thp in Hs. cbn [orun].
    destruct (oexec mv o w) as [v1 w1|[] w1|].
    + destruct Hs as (vs2 & Ho2 & HA2). rewrite Ho in Ho2. simplify_eq.
      destruct (IH Hos Hrs _ HA2) as (w' & Hr & HA'). rewrite Hr. eauto.
    + destruct Hs as ([?|[i ->]] & _); [done|by destruct (Ho1 i)].
    + destruct Hs as [Ho2 _]. by rewrite Ho in Ho2.
    + by rewrite Ho in Hs.
  - apply Forall_cons in Hos as [Ho1 Hos], Hrs as [_ Hrs].
    pose proof (op_ok mv true w vs o HA) as Hs. unfold stp, okp, thp in Hs. cbn [orun].
    destruct (oexec mv o w) as [v1 w1|[] w1|].
    + destruct Hs as (vs2 & Ho2 & _). by rewrite Ho in Ho2.
    + destruct Hs as ([?|[i ->]] & _); [done|by destruct (Ho1 i)].
    + destruct Hs as [_ HA2]. destruct (IH Hos Hrs _ HA2) as (w' & Hr & HA'). rewrite Hr. eauto.
    + by rewrite Ho in Hs.
  - by apply Forall_cons in Hrs as [? _].
Qed.
Theorem opt_exact mv oracle os rs vs :
  no_throw oracle os -> Forall (fun r => r <> RetX XT) rs -> opt_trace mv [] os rs vs ->
  exists w, orun mv (ow0 oracle) os = Some (rs, w).
Proof.
  intros [Ho Hos] Hrs Ht. destruct (opt_exact_gen mv (ow0 oracle) [] os rs vs) as (w & Hr & _); eauto using A_init.
Qed.

(** ** Lives *)
Lemma alive_held f w vs : A f w vs [] -> forall o, olife o (w_ev w) = Alive <-> exists i, holds_obj w i o.
Proof.
  intros HA o. rewrite (a_log _ _ _ _ HA). split.
  - destruct (w_objs w !! o) as [[z []]|] eqn:E; try done. intros _. pose proof (a_live _ _ _ _ HA _ _ E) as Hin.
    unfold owned in Hin. rewrite app_nil_r in Hin. apply elem_of_list_omap in Hin as (oc & Hin & Hh).
    apply elem_of_list_lookup in Hin as [i Hi]. exists i.
    destruct (Forall2_lookup_l _ _ _ _ _ (a_opt _ _ _ _ HA) Hi) as (ox & _ & Hr).
    destruct oc as [[[] [o'|]]|], ox as [[z'|]|]; cbn in *; try done. by simplify_eq.
  - intros [i Hi]. destruct (Forall2_lookup_l _ _ _ _ _ (a_opt _ _ _ _ HA) Hi) as (ox & _ & Hr).
    destruct ox as [[z'|]|]; cbn in *; try done. by rewrite Hr.
Qed.
Theorem opt_lives mv oracle os rs w :
  orun mv (ow0 oracle) os = Some (rs, w) ->
  (forall o, olife o (w_ev w) <> Wrong) /\
  (forall o, olife o (w_ev w) = Alive <-> exists i, holds_obj w i o) /\
  (forall o i j, holds_obj w i o -> holds_obj w j o -> i = j) /\
  (forall i, is_engaged w i = true <-> exists o, holds_obj w i o).
Proof.
  intros Hr. destruct (run_A mv false _ [] _ _ _ (A_init false oracle ltac:(done)) Hr) as (vs & _ & HA & _).
  split_and!.
  - intros o. rewrite (a_log _ _ _ _ HA). by destruct (w_objs w !! o) as [[z []]|].
  - by eapply alive_held.
  - intros o i j Hi Hj. eapply (own_var (w_opt w) [] i j o); [eapply a_nd, HA|by rewrite Hi|by rewrite Hj].
  - intros i. unfold is_engaged, holds_obj. split; [|by intros [o ->]].
    destruct (w_opt w !! i) as [oc|] eqn:Hi; [|done].
    destruct (Forall2_lookup_l _ _ _ _ _ (a_opt _ _ _ _ HA) Hi) as (ox & _ & Hx).
    destruct oc as [[[] [o'|]]|], ox as [[z'|]|]; cbn in *; try done. eauto.
Qed.
Theorem opt_no_leak mv oracle os rs w :
  orun mv (ow0 oracle) os = Some (rs, w) -> Forall (eq None) (w_opt w) ->
  forall o, EvCon o ∈ w_ev w -> olife o (w_ev w) = Dead.
Proof.
  intros Hr Hn o Hin. destruct (opt_lives _ _ _ _ _ Hr) as (Hw & Ha & _).
  destruct (olife o (w_ev w)) eqn:E; try done.
  - exfalso. assert (Hd : forall l : list oev, EvCon o ∈ l -> olife o l <> Unborn); [|by eapply Hd in Hin].
    clear. intros l. induction l as [|e l IH]; intros Hin; [by apply elem_of_nil in Hin|].
    apply elem_of_cons in Hin as [<-|Hin]; cbn.
    + rewrite decide_True by done. by destruct (olife o l).
    + destruct e as [o'|o'|o']; cbn; destruct (decide (o = o')); try (by apply IH); by destruct (olife o l).
  - exfalso. apply Ha in E as [i Hi]. eapply Forall_lookup_1 in Hn; [|exact Hi]. done.
  - by destruct (Hw o).
Qed.

(** ** Exceptions *)
Lemma engaged_abs f w vs i : A f w vs [] -> is_engaged w i = match vs !! i with Some (Some (Some _)) => true | _ => false end.
Proof.
  intros HA. unfold is_engaged. pose proof (a_opt _ _ _ _ HA) as Hf.
  destruct (w_opt w !! i) as [oc|] eqn:Hi.
  - destruct (Forall2_lookup_l _ _ _ _ _ Hf Hi) as (ox & -> & Hx).
    by destruct oc as [[[] [o'|]]|], ox as [[z'|]|]; cbn in *.
  - destruct (vs !! i) as [ox|] eqn:Hv; [|done]. destruct (Forall2_lookup_r _ _ _ _ _ Hf Hv) as (oc & Hc & _). by rewrite Hi in Hc.
Qed.
Definition eng (vs : ovals) (i : nat) : bool := match vs !! i with Some (Some (Some _)) => true | _ => false end.
Lemma loose_eng vs i vs' k : loose vs i vs' -> eng vs' k = eng vs k.
Proof.
  intros [->|(z & z' & Hz & ->)]; [done|]. unfold eng. destruct (decide (i = k)) as [->|].
  - by rewrite (put_at _ _ _ _ Hz), Hz.
  - by rewrite put_ne.
Qed.
Theorem opt_exceptions mv oracle os rs w op w' :
  orun mv (ow0 oracle) os = Some (rs, w) -> oexec mv op w = Throw XT w' ->
  length (w_opt w') = length (w_opt w) /\ after_exception op (is_engaged w) (is_engaged w').
Proof.
  intros Hr Hx. destruct (run_A mv false _ [] _ _ _ (A_init false oracle ltac:(done)) Hr) as (vs & _ & HA & _).
  pose proof (op_ok mv false w vs op HA) as Hs. unfold stp in Hs. rewrite Hx in Hs. cbn in Hs.
  destruct Hs as (_ & vs' & Ht & HA').
  assert (Hlen : forall i x, length (put_var vs i x) = length vs) by (intros; apply insert_length).
  assert (Hll : forall a b c, loose a b c -> length c = length a).
  { intros a b c [->|(? & ? & _ & ->)]; [done|apply insert_length]. }
  split.
  - rewrite (A_len _ _ _ _ HA), (A_len _ _ _ _ HA').
    destruct op as [|z|b z|z|b z|j|j|[] j|i|i j|i j|[] i j|i z|i|i z|i|i|i j|i|i|i z|i|i|i|i z|i z|i z|i]; cbn in Ht; subst; try done; eauto.
    + destruct Ht as (v1 & H1 & H2). by rewrite (Hll _ _ _ H2), (Hll _ _ _ H1).
    + destruct Ht as (v1 & H1 & H2). by rewrite (Hll _ _ _ H2), (Hll _ _ _ H1).
    + destruct Ht as [(v1 & H1 & H2)|(_ & _ & ->)]; [by rewrite (Hll _ _ _ H2), (Hll _ _ _ H1)|done].
  - assert (Hb : forall i, is_engaged w i = eng vs i) by (intros; by eapply engaged_abs).
    assert (Ha : forall i, is_engaged w' i = eng vs' i) by (intros; by eapply engaged_abs).
    assert (Hp : forall k, eng (put_var vs k None) k = false /\ forall i, i <> k -> eng (put_var vs k None) i = eng vs i).
    { intros k. unfold eng. split; [|intros i Hi; by rewrite put_ne]. unfold put_var.
      destruct (decide (k < length vs)); [by rewrite list_lookup_insert|]. by rewrite lookup_ge_None_2 by (rewrite insert_length; lia). }
    destruct op as [|z|b z|z|b z|j|j|[] j|j|k j|k j|[] k j|j z|j|j z|j|j|k j|j|j|j z|j|j|j|j z|j z|j z|j]; cbn in Ht |- *; try done;
      try (intros i; rewrite Ha, Hb; subst; first [done|by eapply loose_eng]).
    + intros i. rewrite Ha, Hb. destruct Ht as (v1 & H1 & H2). by rewrite (loose_eng _ _ _ _ H2), (loose_eng _ _ _ _ H1).
    + intros i. rewrite Ha, Hb. destruct Ht as (v1 & H1 & H2). by rewrite (loose_eng _ _ _ _ H2), (loose_eng _ _ _ _ H1).
    + subst. rewrite Ha. split; [apply Hp|]. intros i Hi. rewrite Ha, Hb. by apply Hp.
    + subst. rewrite Ha. split; [apply Hp|]. intros i Hi. rewrite Ha, Hb. by apply Hp.
    + destruct Ht as [(v1 & H1 & H2)|([z Hz] & Hj & ->)].
      * left. intros i. rewrite Ha, Hb. by rewrite (loose_eng _ _ _ _ H2), (loose_eng _ _ _ _ H1).
      * right. rewrite !Hb, Ha. unfold eng at 1 2. rewrite Hz, Hj. split_and!; [done|done|apply Hp|]. intros i Hi. rewrite Ha, Hb. by apply Hp.
Qed.

(** ** The representation for scalars *)
Definition trel (oc : option tcell) (ox : option (option Z)) : Prop :=
  match oc, ox with
  | None, None => True
  | Some c, Some x => x = if t_init c then Some (t_val c) else None
  | _, _ => False
  end.
Lemma tget_ok (w : tw) (vs : ovals) i : Forall2 trel w vs ->
  match vs !! i with
  | Some (Some x) => exists c, w !! i = Some (Some c) /\ x = if t_init c then Some (t_val c) else None
  | _ => forall c, w !! i <> Some (Some c)
  end.
Proof.
  intros Hf. destruct (vs !! i) as [[x|]|] eqn:Hv.
  - destruct (Forall2_lookup_r _ _ _ _ _ Hf Hv) as ([c|] & Hc & Hr); [|done]. eauto.
  - intros c Hc. destruct (Forall2_lookup_lr _ _ _ _ _ _ Hf Hc Hv).
  - intros c Hc. destruct (Forall2_lookup_l _ _ _ _ _ Hf Hc) as (? & ? & _). by simplify_eq.
Qed.
Ltac tvar w vs Hf :=
  match goal with |- context [vs !! ?j] => is_var j;
    let Hj := fresh "Hj" in let y := fresh "y" in let Hv := fresh "Hv" in let r := fresh "r" in let Hr := fresh "Hr" in let Hy := fresh "Hy" in
    let q := fresh in let E := fresh in
    pose proof (tget_ok w vs j Hf) as Hj;
    destruct (vs !! j) as [[y|]|] eqn:Hv;
    [destruct Hj as (r & Hr & Hy); rewrite Hr
    |destruct (w !! j) as [[q|]|] eqn:E; [by destruct (Hj q)|done|done]
    |destruct (w !! j) as [[q|]|] eqn:E; [by destruct (Hj q)|done|done]]
  end.
Ltac tfin Hput :=
  match goal with H : ?y = if t_init ?r then _ else _ |- _ =>
    let E := fresh in subst y; destruct (t_init r) eqn:E; cbn; first
      [done
      |match goal with |- exists _, AVal _ (put_var ?vs _ _) = _ /\ _ => exists vs; split; [by rewrite Hput|done] end
      |eexists; split; [first [reflexivity|rewrite Hput by done; reflexivity]|]; unfold tset, put_var; first [done|apply Forall2_insert; [done|cbn; by rewrite ?E]]
      |by rewrite ?Hput by done]
  end.
Lemma tc_ok (w : tw) (vs : ovals) op : Forall2 trel w vs -> (forall i, op <> OEmplaceX i) ->
  match texec op w with
  | TOk v w' => exists vs', ospec id vs op = AVal v vs' /\ Forall2 trel w' vs'
  | TX XAccess w' => ospec id vs op = AAccess /\ w' = w
  | TX XT _ => False
  | TBad => ospec id vs op = AUndef
  end.
Proof.
  intros Hf Hne. pose proof (Forall2_length _ _ _ Hf) as Hl.
  assert (Hid : forall x : option Z, id <$> x = x) by (by intros []).
  assert (Hput : forall i x, vs !! i = Some (Some x) -> put_var vs i x = vs) by (intros; by apply put_none_id).
  assert (Hnew : forall c x, trel (Some c) (Some x) ->
    match tnew w c with TOk v w' => exists vs', add_var vs x = AVal v vs' /\ Forall2 trel w' vs' | _ => False end).
  { intros c x Hc. cbn. exists (vs ++ [Some x]). split; [unfold add_var; by rewrite Hl|]. apply Forall2_app; [done|by constructor]. }
  destruct op as [|z|b z|z|b z|j|j|m j|i|i j|i j|m i j|i z|i|i z|i|i|i j|i|i|i z|i|i|i|i z|i z|i z|i]; cbn; unfold at_var, tget.
  16: by destruct (Hne i).
  all: try (tvar w vs Hf).
  all: try (tvar w vs Hf).
  all: try (apply (Hnew _ _); cbn; try done; by destruct b).
  all: cbn [leave]; rewrite ?Hid.
  all: try (eexists; split; [reflexivity|]; unfold tset, put_var; repeat apply Forall2_insert; try done; by subst).
  all: try (assert (Hlv : leave id m y = y) by (destruct m; cbn; by rewrite ?Hid); rewrite Hlv).
  all: try (rewrite Hput by done).
  all: try (assert (Hpp : put_var (put_var vs i y) j y = put_var vs i y)
         by (apply put_none_id; destruct (decide (i = j)) as [->|]; [by eapply put_at|by rewrite put_ne]); rewrite Hpp).
  all: try (subst; destruct (t_init r) eqn:Er; cbn; rewrite ?Er; done).
  all: try (eexists; split; [by subst; destruct (t_init r)|]; unfold tset, put_var; repeat apply Forall2_insert; try done; cbn; by subst; destruct (t_init r)).
  all: try (tfin Hput).
  - exists (vs ++ [Some y]). split; [by rewrite Hl|]. apply Forall2_app; [done|by constructor].
  - exists (vs ++ [Some y]). split; [by rewrite Hl|]. apply Forall2_app; [done|]. constructor; [|done]. cbn. subst y. by destruct (t_init r).
Qed.
Lemma tc_run w tws vs os : A true w vs [] -> Forall2 trel tws vs -> Forall (fun o => forall i, o <> OEmplaceX i) os ->
  fst <$> trun tws os = fst <$> orun id w os.
Proof.
  intros HA Hf Hos. revert w tws vs HA Hf. induction os as [|o os IH]; intros w tws vs HA Hf; [done|].
  apply Forall_cons in Hos as [Ho Hos]. cbn [trun orun].
  pose proof (op_ok id true w vs o HA) as Hs. unfold stp, okp, thp in Hs. pose proof (tc_ok tws vs o Hf Ho) as Ht.
  destruct (oexec id o w) as [v w1|[] w1|].
  - destruct Hs as (x & Ho1 & HA1). rewrite Ho1 in Ht. destruct (texec o tws) as [v' t1|[] t1|]; [|done|by destruct Ht|done].
    destruct Ht as (x' & [= <- <-] & Hf1). specialize (IH Hos w1 t1 x HA1 Hf1).
    destruct (orun id w1 os) as [[]|], (trun t1 os) as [[]|]; cbn in *; by simplify_eq.
  - exfalso. destruct Hs as ([?|[i ->]] & _); [done|by eapply Ho].
  - destruct Hs as [Ho1 HA1]. rewrite Ho1 in Ht. destruct (texec o tws) as [v' t1|[] t1|]; [by destruct Ht as (? & ? & _)|done| |done].
    destruct Ht as [_ ->]. specialize (IH Hos w1 tws vs HA1 Hf).
    destruct (orun id w1 os) as [[]|], (trun tws os) as [[]|]; cbn in *; by simplify_eq.
  - rewrite Hs in Ht. destruct (texec o tws) as [v' t1|[] t1|]; [by destruct Ht as (? & ? & _)|done|by destruct Ht|done].
Qed.
Theorem opt_scalar_same oracle os : no_throw oracle os ->
  fst <$> trun [] os = fst <$> orun id (ow0 oracle) os.
Proof. intros [Ho Hos]. eapply tc_run; [by apply A_init|constructor|done]. Qed.
