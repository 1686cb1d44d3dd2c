(** C54, C62: the gRPC writer. *)
From Coq Require Import Permutation.
From Verif Require Import Base Concur GrpcSpec GrpcModel GrpcProofs.

Section GrpcT.
  Context {V : Type}.
  Variable quiet : bool.
  Definition flt : list (wlab V) := if quiet then [] else [WFinish SOk].

  Definition evs_of (vs : list V) (e : ending) : list (wev V) :=
    map ENext vs ++ match e with NoEnd => [] | Completed => [EDone] | Failed => [EErr] end.
  Lemma wf_evs : forall vs e, wf (evs_of vs e).
  Proof. induction vs as [|v vs IH]; intros [| |]; cbn; auto; [apply (IH NoEnd)|apply (IH Completed)|apply (IH Failed)]. Qed.
  Lemma vals_next : forall vs : list V, vals (map ENext vs) = vs.
  Proof. induction vs; cbn; congruence. Qed.
  Lemma vals_evs : forall vs e, vals (evs_of vs e) = vs.
  Proof. intros vs e. unfold evs_of. rewrite vals_app, vals_next. destruct e; cbn; apply app_nil_r. Qed.
  Lemma no_term : forall vs : list V, existsb terminal (map ENext vs) = false.
  Proof. induction vs; cbn; auto. Qed.
  Lemma no_err : forall (vs : list V) e, e <> Failed -> ~ In EErr (evs_of vs e).
  Proof.
    intros vs e N I. unfold evs_of in I. apply in_app_or in I as [I|I].
    - apply in_map_iff in I as (x & X & _). discriminate.
    - destruct e; cbn in I; intuition congruence.
  Qed.

  Lemma phase_tr : forall bad P f p m y n q t, @phase V quiet bad P f p m y n q t ->
    (exists r, t ++ r = writes P) \/
    (bad = true /\ exists P0 v r r', P = P0 ++ v :: r /\ t ++ r' = writes P0 ++ [WStart v; WFail] ++ flt).
  Proof.
    intros bad P f p m y n q t H. unfold flt.
    inversion H as [F|P0 x EP F|P0 x q0 EP F|P0 x q0 EP F|P0 q0 EP F|P0 x q0 n0 EP F B N|P0 x q0 EP F B N]; subst.
    - left. exists []. apply app_nil_r.
    - left. exists (writes [x]). now rewrite writes_app.
    - left. exists (WDone :: writes q0). rewrite writes_app, <- app_assoc. reflexivity.
    - left. exists (writes q0). rewrite <- writes_app, <- app_assoc. reflexivity.
    - left. exists (writes q). now rewrite writes_app.
    - right. split; auto. exists P0, x, q0, (if quiet then [] else [WFinish SOk]). now rewrite <- app_assoc.
    - right. split; auto. exists P0, x, q0, []. now rewrite app_nil_r.
  Qed.

  Lemma start_J : forall bad vs e cbs tr c, (bad = false -> forall t b, In t cbs -> In b t -> b = true) ->
    gexec (wstep (on_fail quiet)) (w_start vs e cbs) tr c ->
    exists t0 gs', snd c = t0 :: gs' /\ J quiet bad (evs_of vs e) (length (concat cbs)) (fst c) t0 (concat gs') tr.
  Proof.
    intros bad vs e cbs tr c B E.
    assert (CC : concat (map (map (@ICb V)) cbs) = map ICb (concat cbs)) by (symmetry; apply concat_map).
    apply (J_exec quiet bad (evs_of vs e) (length (concat cbs)) (map (map ICb) cbs) tr c (wf_evs vs e) E); rewrite CC.
    - apply Forall_forall. intros i I. apply in_map_iff in I as (b & <- & I). cbn. intros ->. destruct bad; auto. apply in_concat in I as (t & T & I). exact (B eq_refl t false T I).
    - clear. induction (concat cbs) as [|b l IH]; auto. cbn [map length]. rewrite count_cons, IH. reflexivity.
    - intros f I. apply count_zero_of. intros x X. apply in_map_iff in X as (b & <- & _). cbn in I. repeat (destruct I as [<-|I]; [reflexivity|]). destruct I.
  Qed.

  Lemma J_written : forall bad vs e total s t0 G tr, J quiet bad (evs_of vs e) total s t0 G tr ->
    exists st, stok (evs_of vs e) st /\ written vs (match e with NoEnd => [] | _ => [WFinish st] end) flt tr.
  Proof.
    intros bad vs e total s t0 G tr [OFF GOK REP (a & es & past & tr0 & st & T0 & A & EV & FI & LO & PH & SE & SO & TR)].
    exists st. split. { rewrite EV. now apply stok_app. }
    assert (VS : vs = vals past ++ vals (cur a ++ es)) by (rewrite <- vals_app, <- EV; now rewrite vals_evs).
    unfold fintr in TR.
    destruct (w_fin s && negb (isEmpty a) && match w_q s with [] => true | _ => false end && (count isMore G =? 0)) eqn:FT.
    - apply andb_prop in FT as (FT & M0). apply andb_prop in FT as (FT & Q0). apply andb_prop in FT as (F0 & _).
      rewrite FI in F0. pose proof (wf_evs vs e) as W. rewrite EV in W. apply wf_past in W; auto. rewrite W in *. cbn in VS. rewrite app_nil_r in VS.
      assert (NE : e <> NoEnd). { intros ->. unfold evs_of in EV. rewrite !app_nil_r in EV. rewrite <- EV, no_term in F0. discriminate. }
      apply Nat.eqb_eq in M0. destruct (w_q s); [|discriminate]. rewrite M0 in PH.
      assert (T : tr0 = writes vs) by (rewrite VS; inversion PH; auto).
      exists []. left. rewrite app_nil_r, TR, T. destruct e; auto. contradiction.
    - rewrite app_nil_r in TR. subst tr0. destruct (phase_tr _ _ _ _ _ _ _ _ _ PH) as [(r & R)|(_ & P0 & v & r & r' & P & R)].
      + exists (r ++ writes (vals (cur a ++ es)) ++ match e with NoEnd => [] | _ => [WFinish st] end). left.
        rewrite VS at 1. rewrite writes_app, <- R, <- !app_assoc. reflexivity.
      + exists r'. right. exists P0, v, (r ++ vals (cur a ++ es)). split; auto. rewrite VS at 1. rewrite P, <- app_assoc. reflexivity.
  Qed.

  Definition shape (t : list (witem V)) : Prop := forall i, In i (tl t) -> isCb i = true.
  Lemma start_shape : forall vs e cbs tr c, gexec (wstep (on_fail quiet)) (w_start vs e cbs) tr c ->
    exists t0 gs, snd c = t0 :: gs /\ (forall t, In t gs -> shape t /\ forall i, In i t -> gok quiet true i).
  Proof.
    intros vs e cbs tr c E.
    refine (gexec_tinv (wstep (on_fail quiet)) (fun s ts tr => exists t0 gs, ts = t0 :: gs /\ (forall t, In t gs -> shape t /\ forall i, In i t -> gok quiet true i)) _ _ _ _ E _).
    - intros s ts1 it rest ts2 tr' s' its ls (t0 & gs & T & H) ST. destruct ts1 as [|t1 ts1]; cbn [app] in *; inversion T; subst; [eauto|].
      exists t0, (ts1 ++ (its ++ rest) :: ts2). split; auto. intros t I. apply in_app_or in I as [I|[<-|I]].
      + apply H. apply in_or_app. auto.
      + destruct (H (it :: rest)) as (SH & GO); [apply in_or_app; right; now left|].
        assert (K : (its = [] \/ exists x, its = [x]) /\ forall x, In x its -> gok quiet true x).
        { pose proof (GO it (or_introl eq_refl)) as G. destruct it as [z|z|v| |z|z|ok| | | | |z| |]; cbn [gok] in G; try contradiction; cbn [wstep] in ST.
          - destruct (w_fly s); [|discriminate]. inversion ST. destruct ok; [split; eauto; intros x [<-|[]]; exact I|].
            unfold on_fail. destruct quiet eqn:Q; (split; [eauto|]); intros x X; [destruct X|]. destruct X as [<-|[]]. reflexivity.
          - destruct (w_lock s); inversion ST. split; eauto; intros x [<-|[]]; exact I.
          - destruct (w_q s); inversion ST. split; eauto; intros x [<-|[]]; exact I.
          - destruct (w_q s); cbn [start] in ST; inversion ST; (split; eauto; intros x [<-|[]]; exact I).
          - inversion ST. split; auto. intros x [].
          - destruct z; try contradiction. inversion ST. split; auto. intros x []. }
        destruct K as ([->|(x & ->)] & GX); cbn [app]; (split; [|intros i [<-|I] || intros i I; cbn in *; auto]).
        * intros i I. cbn in SH. apply SH. destruct rest; [destruct I|now right].
        * intros i I. apply SH. exact I.
      + apply H. apply in_or_app. right. now right.
    - cbn. eexists. eexists. split; [reflexivity|]. intros t T. apply in_map_iff in T as (l & <- & _). split.
      + intros i I. destruct l; [destruct I|]. cbn in I. apply in_map_iff in I as (b' & <- & _). reflexivity.
      + intros i I. apply in_map_iff in I as (b & <- & _). cbn. auto.
  Qed.

  Lemma reps_writes : forall P : list V, count isRep (writes P) = length P.
  Proof. induction P as [|v P IH]; auto. change (writes (v :: P)) with (WStart v :: WDone :: writes P). rewrite !count_cons, IH. cbn. lia. Qed.

  Lemma J_stuck : forall vs e total c t0 gs tr, snd c = t0 :: gs -> J quiet false (evs_of vs e) total (fst c) t0 (concat gs) tr ->
    (forall t, In t gs -> shape t) ->
    length vs <= total -> (forall ls c', ~ gstep (wstep (on_fail quiet)) c ls c') ->
    t0 = [] /\ exists st, stok (evs_of vs e) st /\ tr = writes vs ++ match e with NoEnd => [] | _ => [WFinish st] end.
  Proof.
    intros vs e total [s ts] t0 gs tr TS [OFF GOK REP (a & es & past & tr0 & st & T0 & A & EV & FI & LO & PH & SE & SO & TR)] SH LE NS.
    cbn [fst snd] in *. subst ts.
    assert (NST : forall it rest, t0 = it :: rest -> wstep (on_fail quiet) s it = None).
    { intros it rest Z. destruct (wstep (on_fail quiet) s it) as [[[s' its] ls]|] eqn:ST; auto. exfalso. rewrite Z in NS.
      apply (NS ls (s', (its ++ rest) :: gs)). exact (GStep _ s [] it rest gs s' its ls ST). }
    assert (NSH : forall it rest, In (it :: rest) gs -> wstep (on_fail quiet) s it = None).
    { intros it rest Z. destruct (wstep (on_fail quiet) s it) as [[[s' its] ls]|] eqn:ST; auto. exfalso. apply in_split in Z as (g1 & g2 & ->).
      apply (NS ls (s', (t0 :: g1) ++ (its ++ rest) :: g2)). exact (GStep _ s (t0 :: g1) it rest g2 s' its ls ST). }
    assert (NSG : forall it, In it (concat gs) -> isCb it = false -> wstep (on_fail quiet) s it = None).
    { intros it I NC. apply in_concat in I as (t & T & I). destruct t as [|x t]; [destruct I|]. destruct I as [->|I]; [eauto|].
      rewrite (SH _ T it I) in NC. discriminate. }
    assert (CP : forall f, (forall it, f it = true -> isCb it = false /\ wstep (on_fail quiet) s it <> None) -> count f (concat gs) = 0).
    { intros f F. apply count_zero_of. intros x X. destruct (f x) eqn:Z; auto. destruct (F x Z) as (F1 & F2). destruct (F2 (NSG x X F1)). }
    assert (C1 : count isMore (concat gs) = 0).
    { apply CP. intros [] Z; try discriminate. split; auto. cbn. destruct (w_q s); discriminate. }
    assert (C2 : count isUn (concat gs) = 0).
    { apply CP. intros [] Z; try discriminate. split; auto. discriminate. }
    assert (C3 : count isFi (concat gs) = 0).
    { apply CP. intros [] Z; try discriminate. split; auto. discriminate. }
    assert (C4 : count isPop (concat gs) = 0).
    { destruct (count isPop (concat gs)) eqn:Z; auto. exfalso. rewrite Nat.add_succ_r in PH. apply phase_pend in PH as (_ & _ & _ & _ & Q).
      rewrite CP in Z; [discriminate|]. intros [] Y; try discriminate. split; auto. cbn. destruct (w_q s); [contradiction|discriminate]. }
    assert (A0 : acs a = 0).
    { destruct a as [i|]; auto. cbn [otl app] in T0. specialize (NST _ _ T0). destruct i; cbn [aok] in A; try contradiction; try reflexivity; try discriminate NST.
      cbn in NST. destruct (w_q s) as [|? []]; discriminate. }
    rewrite C1, C2, C4, A0 in LO. destruct (w_lock s) eqn:LK; [discriminate|].
    assert (C5 : count isLk (concat gs) = 0).
    { apply CP. intros [] Z; try discriminate. split; auto. cbn. rewrite LK. discriminate. }
    assert (AN : a = None).
    { destruct a as [i|]; auto. cbn [otl app] in T0. specialize (NST _ _ T0). destruct i; cbn [aok] in A; try contradiction; try discriminate A0.
      cbn in NST. rewrite LK in NST. discriminate. }
    subst a. cbn [otl app cur] in *. destruct es as [|e1 es].
    2: { cbn in T0. specialize (NST _ _ T0). cbn in NST. rewrite OFF in NST. discriminate. }
    split; auto. exists st. cbn in EV. rewrite app_nil_r in EV. rewrite EV. split; auto.
    rewrite C1, C3, C4, C5 in *. cbn [Nat.add] in *.
    assert (T : tr0 = writes vs /\ w_q s = []).
    { assert (VS : vals past = vs) by (rewrite <- EV; apply vals_evs). rewrite VS in PH.
      assert (FL : w_fly s = true -> count isCb (concat gs) = 0).
      { intro FL. apply count_zero_of. intros x X. destruct (isCb x) eqn:Z; auto. exfalso.
        apply in_concat in X as (t & T & I). destruct t as [|y t]; [destruct I|].
        pose proof (NSH y t T) as Y. assert (YG : In y (concat gs)) by (apply in_concat; exists (y :: t); split; auto; now left).
        destruct (isCb y) eqn:YC.
        - destruct y; try discriminate. cbn in Y. rewrite FL in Y. discriminate.
        - assert (YP : isLk y = false /\ isPop y = false) by (split; apply (count_zero _ (concat gs)); auto).
          destruct YP as (Y1 & Y2). rewrite Forall_forall in GOK. specialize (GOK y YG). destruct y; cbn in *; try contradiction; try discriminate.
          destruct (w_q s); discriminate. }
      unfold fintr in TR.
      inversion PH as [F|P0 x EP F|P0 x q0 EP F| | |P0 x q0 n0 EP F B N|P0 x q0 EP F B N]; try discriminate; auto.
      exfalso. assert (QN : w_q s <> []) by congruence. destruct (w_q s) as [|y q1]; [contradiction|].
      rewrite !andb_false_r in TR. cbn [andb] in TR. rewrite app_nil_r in TR.
      assert (R : count isRep tr = length P0). { rewrite TR, <- H4, count_app, reps_writes, count_cons, count_nil. cbn. lia. }
      rewrite FL in REP by auto. rewrite EP, app_length in LE. cbn in LE. lia. }
    destruct T as (T & Q). rewrite TR, T. unfold fintr. rewrite Q, FI. cbn [isEmpty negb Nat.eqb]. rewrite !andb_true_r.
    rewrite <- EV. unfold evs_of. rewrite existsb_app, no_term. destruct e; auto.
  Qed.
End GrpcT.

(** Whatever the interleaving of the source's events with the completions (in any number of threads, successful
    or not): the values are written in order, each once, the next one only when the previous
    write was done, and the end is signalled after all of them; a failed write is the last one. *)
Theorem C54_writes : forall V (vs : list V) e cbs quiet tr c, e <> Failed ->
  gexec (wstep (on_fail quiet)) (w_start vs e cbs) tr c ->
  written vs (fin_of e) (if quiet then [] else [WFinish SOk]) tr.
Proof.
  intros V vs e cbs quiet tr c NF E.
  destruct (start_J quiet true vs e cbs tr c) as (t0 & gs & _ & JJ); [discriminate|exact E|].
  destruct (J_written _ _ _ _ _ _ _ _ _ JJ) as (st & SO & W). destruct SO as [->|(_ & I)].
  - destruct e; auto. contradiction.
  - now apply no_err in I.
Qed.
Print Assumptions C54_writes.

(** If the source fails, the same holds but the status may be OK; what is missing is that it is
    the error status (see below). *)
Theorem C54_error_partial : forall V (vs : list V) cbs quiet tr c,
  gexec (wstep (on_fail quiet)) (w_start vs Failed cbs) tr c ->
  exists st, (st = SOk \/ st = SInternal) /\ written vs [WFinish st] (if quiet then [] else [WFinish SOk]) tr.
Proof.
  intros V vs cbs quiet tr c E.
  destruct (start_J quiet true vs Failed cbs tr c) as (t0 & gs & _ & JJ); [discriminate|exact E|].
  destruct (J_written _ _ _ _ _ _ _ _ _ JJ) as (st & SO & W). exists st. split; auto. destruct SO as [->|(-> & _)]; auto.
Qed.
Print Assumptions C54_error_partial.

(** Nothing is lost: if every write is reported done (there are enough reports), then whenever nothing can move
    everything has been written and the end signalled. *)
Theorem C54_complete : forall V (vs : list V) e cbs quiet tr c, (forall t b, In t cbs -> In b t -> b = true) -> length vs <= length (concat cbs) ->
  gexec (wstep (on_fail quiet)) (w_start vs e cbs) tr c ->
  (forall ls c', ~ gstep (wstep (on_fail quiet)) c ls c') ->
  hd [] (snd c) = [] /\ exists st, (e = Completed -> st = SOk) /\ tr = writes vs ++ match e with NoEnd => [] | _ => [WFinish st] end.
Proof.
  intros V vs e cbs quiet tr c AO LE E NS.
  destruct (start_J quiet false vs e cbs tr c (fun _ => AO) E) as (t0 & gs & TS & JJ).
  destruct (start_shape quiet vs e cbs tr c E) as (t1 & gs1 & TS1 & SH). rewrite TS in TS1. inversion TS1; subst t1 gs1.
  destruct (J_stuck quiet vs e _ c t0 gs tr TS JJ (fun t I => proj1 (SH t I)) LE NS) as (T0 & st & SO & T).
  rewrite TS. split; auto. exists st. split; auto. intros ->. destruct SO as [->|(_ & I)]; auto. apply no_err in I; [destruct I|discriminate].
Qed.
Print Assumptions C54_complete.

(** The full claim fails: if a write is in flight when the source fails, the call is finished
    with status OK. *)
Theorem C54_error_refuted : exists tr c,
  gexec (wstep (on_fail true)) (w_start [1] Failed [[true]]) tr c /\ gfinished c /\ tr = [WStart 1; WDone; WFinish SOk].
Proof.
  destruct (grun (wstep (on_fail true)) [0;0;0;0;0;0;0;0;0;0;1;1;1;1;1] (w_start [1] Failed [[true]])) as [[tr c]|] eqn:R; [|vm_compute in R; discriminate].
  exists tr, c. split; [eapply grun_sound; exact R|]. vm_compute in R. inversion R; subst. split; auto.
  intros t [<-|[<-|[]]]; reflexivity.
Qed.
Print Assumptions C54_error_refuted.

Example C54_case : exists tr c,
  gexec (wstep (on_fail true)) (w_start [1; 2; 3] Completed [[true; true]; [true]]) tr c /\ gfinished c /\ tr = [WStart 1; WDone; WStart 2; WDone; WStart 3; WDone; WFinish SOk].
Proof.
  pose (sc := [0;0;0;0; 1; 0;0;0;0; 1;1;1;1; 2; 0;0; 2;2; 0;0; 2;2;0;0;0;0;1;0;0;0;0;1;1;1;1] ++ concat (repeat [0;1;2] 20)).
  exists (fst (gtol (wstep (on_fail true)) sc (w_start [1; 2; 3] Completed [[true; true]; [true]]))), (snd (gtol (wstep (on_fail true)) sc (w_start [1; 2; 3] Completed [[true; true]; [true]]))).
  split; [apply gtol_sound|]. split; [|vm_compute; reflexivity].
  intros t H. vm_compute in H. repeat (destruct H as [<-|H]; [reflexivity|]). destruct H.
Qed.
Example C54_fail_case : exists tr c,
  gexec (wstep (on_fail false)) (w_start [1; 2] Completed [[false]]) tr c /\ tr = [WStart 1; WFail; WFinish SOk].
Proof.
  pose (sc := [0;0;0;0;0;1;1;0;0;0;0;0;0;0;0;0;0;0]).
  exists (fst (gtol (wstep (on_fail false)) sc (w_start [1; 2] Completed [[false]]))), (snd (gtol (wstep (on_fail false)) sc (w_start [1; 2] Completed [[false]]))).
  split; [apply gtol_sound|vm_compute; reflexivity].
Qed.

(** C62: without cancellation the call is finished at most once. *)
Theorem C62_once_partial : forall V (vs : list V) e cbs quiet tr c,
  gexec (wstep (on_fail quiet)) (w_start vs e cbs) tr c -> finishes tr <= 1.
Proof.
  intros V vs e cbs quiet tr c E.
  assert (FW : forall l : list V, finishes (writes l) = 0) by (induction l; auto).
  assert (FA : forall a b : list (wlab V), finishes (a ++ b) = finishes a + finishes b) by (intros; unfold finishes; now rewrite filter_app, app_length).
  destruct (start_J quiet true vs e cbs tr c) as (t0 & gs & _ & JJ); [discriminate|exact E|].
  destruct (J_written _ _ _ _ _ _ _ _ _ JJ) as (st & _ & r & [W|(a & v & b & _ & W)]); apply (f_equal finishes) in W; rewrite !FA, FW in W.
  - destruct e; cbn in W; lia.
  - unfold flt in W. destruct quiet; cbn in W; lia.
Qed.
Print Assumptions C62_once_partial.

(** OnCancel finishes the call whatever happened before: twice if the source had completed. *)
Theorem C62_once_refuted : exists tr c,
  gexec (wstep (on_fail true)) (w_init, [src (V := nat) [] Completed; [ICancel]]) tr c /\ gfinished c /\ finishes tr = 2.
Proof.
  destruct (grun (wstep (on_fail true)) [0;0;0;0;0;1;1;1] (w_init, [src (V := nat) [] Completed; [ICancel]])) as [[tr c]|] eqn:R; [|vm_compute in R; discriminate].
  exists tr, c. split; [eapply grun_sound; exact R|]. vm_compute in R. inversion R; subst. split; auto.
  intros t [<-|[<-|[]]]; reflexivity.
Qed.
(** Also when the write in flight fails because of the cancellation (server_write_reactor). *)
Theorem C62_fail_refuted : exists tr c,
  gexec (wstep (on_fail false)) (w_init, [src [1] NoEnd; [ICb false]; [ICancel]]) tr c /\ gfinished c /\ finishes tr = 2.
Proof.
  destruct (grun (wstep (on_fail false)) [0;0;0;0;0;1;1;2;2;2] (w_init, [src [1] NoEnd; [ICb false]; [ICancel]])) as [[tr c]|] eqn:R; [|vm_compute in R; discriminate].
  exists tr, c. split; [eapply grun_sound; exact R|]. vm_compute in R. inversion R; subst. split; auto.
  intros t [<-|[<-|[<-|[]]]]; reflexivity.
Qed.
Print Assumptions C62_once_refuted.
Print Assumptions C62_fail_refuted.
