(** The gRPC writer: invariant of all executions. *)
From Coq Require Import Permutation.
From Verif Require Import Base Concur GrpcSpec GrpcModel.

Section GrpcP.
  Context {V : Type}.
  Notation witem := (witem V). Notation wlab := (wlab V). Notation wst := (wst V). Notation wev := (wev V).
  (** quiet: nothing is done for a failed write; bad: writes may fail. *)
  Variables (quiet bad : bool).
  Notation fl := (on_fail quiet).

  Definition isCb (i : witem) := match i with ICb _ => true | _ => false end.
  Definition isLk (i : witem) := match i with ILockD => true | _ => false end.
  Definition isPop (i : witem) := match i with IPop => true | _ => false end.
  Definition isMore (i : witem) := match i with IMore => true | _ => false end.
  Definition isUn (i : witem) := match i with IUnlock => true | _ => false end.
  Definition isFi (i : witem) := match i with IFinish _ => true | _ => false end.
  Definition gok (i : witem) : Prop :=
    match i with ICb ok => ok = false -> bad = true | ILockD | IPop | IMore | IUnlock => True | IFinish SOk => quiet = false | _ => False end.
  Definition isRep (l : wlab) := match l with WDone | WFail => true | _ => false end.

  Definition terminal (e : wev) : bool := match e with ENext _ => false | _ => true end.
  Fixpoint vals (l : list wev) : list V :=
    match l with [] => [] | ENext v :: r => v :: vals r | _ :: r => vals r end.
  Lemma vals_app : forall a b, vals (a ++ b) = vals a ++ vals b.
  Proof. induction a as [|[v| |] a IH]; intro b; cbn; auto. now rewrite IH. Qed.

  (** The program point of the source's thread inside the current call. *)
  Definition cur (a : option witem) : list wev :=
    match a with
    | Some (ILockE e) => [e] | Some (IPush v) => [ENext v]
    | Some (IFin SInternal) => [EErr] | Some (IFin _) => [EDone] | _ => []
    end.
  Definition aok (a : option witem) : Prop :=
    match a with
    | None => True
    | Some i => match i with
                | ILockE _ | IPush _ | IFirst | IUnlock => True
                | IFin SCancelled => False | IFin _ => True
                | IEmpty SCancelled => False | IEmpty _ => True
                | _ => False end
    end.
  Definition acs (a : option witem) : nat :=
    match a with Some (ILockE _) | None => 0 | _ => 1 end.
  Definition isFirst (a : option witem) : bool := match a with Some IFirst => true | _ => false end.
  Definition isEmpty (a : option witem) : bool := match a with Some (IEmpty _) => true | _ => false end.
  Definition otl (a : option witem) : list witem := match a with Some i => [i] | None => [] end.

  Inductive phase (P : list V) (first : bool) : nat -> nat -> bool -> nat -> list V -> list wlab -> Prop :=
  | PhIdle : first = false -> phase P first 0 0 false 0 [] (writes P)
  | PhFresh : forall P0 v, P = P0 ++ [v] -> first = true -> phase P first 0 0 false 0 [v] (writes P0)
  | PhFly : forall P0 v q, P = P0 ++ v :: q -> (first = true -> q <> []) -> phase P first 0 0 true 0 (v :: q) (writes P0 ++ [WStart v])
  | PhPend : forall P0 v q, P = P0 ++ v :: q -> (first = true -> q <> []) -> phase P first 1 0 false 0 (v :: q) (writes (P0 ++ [v]))
  | PhMore : forall P0 q, P = P0 ++ q -> first = false -> phase P first 0 1 false 0 q (writes P0)
  | PhFail : forall P0 v q n, P = P0 ++ v :: q -> (first = true -> q <> []) -> bad = true -> n = (if quiet then 0 else 1) ->
      phase P first 0 0 false n (v :: q) (writes P0 ++ [WStart v; WFail])
  | PhFailed : forall P0 v q, P = P0 ++ v :: q -> (first = true -> q <> []) -> bad = true -> quiet = false ->
      phase P first 0 0 false 0 (v :: q) (writes P0 ++ [WStart v; WFail; WFinish SOk]).

  Lemma writes_app : forall (a b : list V), writes (a ++ b) = writes a ++ writes b.
  Proof. intros. unfold writes. apply flat_map_app. Qed.

  Lemma phase_first : forall P p y n q t, phase P true p 0 y n q t ->
    (exists v, q = [v] /\ phase P false p 0 true n q (t ++ [WStart v])) \/ ((exists a b q', q = a :: b :: q') /\ phase P false p 0 y n q t).
  Proof.
    intros P p y n q t H. inversion H as [F|P0 x EP F|P0 x q0 EP F|P0 x q0 EP F|P0 q0 EP F|P0 x q0 n0 EP F B N|P0 x q0 EP F B N]; subst; try discriminate.
    - left. exists x. split; auto. apply PhFly; auto. discriminate.
    - right. destruct q0 as [|b q0]; [now destruct (F eq_refl)|]. split; [eauto|]. apply PhFly; auto; discriminate.
    - right. destruct q0 as [|b q0]; [now destruct (F eq_refl)|]. split; [eauto|]. apply PhPend; auto; discriminate.
    - right. destruct q0 as [|b q0]; [now destruct (F eq_refl)|]. split; [eauto|]. apply PhFail; auto; discriminate.
    - right. destruct q0 as [|b q0]; [now destruct (F eq_refl)|]. split; [eauto|]. apply PhFailed; auto; discriminate.
  Qed.
  Lemma phase_push : forall P p y n q t v, phase P false p 0 y n q t -> phase (P ++ [v]) true p 0 y n (q ++ [v]) t.
  Proof.
    intros P p y n q t v H. inversion H as [F|P0 x EP F|P0 x q0 EP F|P0 x q0 EP F|P0 q0 EP F|P0 x q0 n0 EP F B N|P0 x q0 EP F B N]; subst; try discriminate.
    - cbn. now apply PhFresh.
    - cbn. apply PhFly; [now rewrite <- app_assoc|]. intros _. now destruct q0.
    - cbn. apply PhPend; [now rewrite <- app_assoc|]. intros _. now destruct q0.
    - cbn. apply PhFail; auto; [now rewrite <- app_assoc|]. intros _. now destruct q0.
    - cbn. apply PhFailed; auto; [now rewrite <- app_assoc|]. intros _. now destruct q0.
  Qed.
  Lemma phase_cb : forall P f p m n q t, phase P f p m true n q t ->
    p = 0 /\ m = 0 /\ n = 0 /\ q <> [] /\ phase P f 1 0 false 0 q (t ++ [WDone]) /\
    (bad = true -> phase P f 0 0 false (if quiet then 0 else 1) q (t ++ [WFail])).
  Proof.
    intros P f p m n q t H. inversion H as [F|P0 x EP F|P0 x q0 EP F|P0 x q0 EP F|P0 q0 EP F|P0 x q0 n0 EP F B N|P0 x q0 EP F B N]; subst.
    repeat (split; auto); [discriminate| |].
    - rewrite <- app_assoc. replace (writes P0 ++ [WStart x] ++ [WDone]) with (writes (P0 ++ [x])) by (now rewrite writes_app). now apply PhPend.
    - intro B. rewrite <- app_assoc. now apply PhFail.
  Qed.
  Lemma phase_pop : forall P p m y n q t, phase P false (S p) m y n q t ->
    exists v q', q = v :: q' /\ p = 0 /\ m = 0 /\ y = false /\ n = 0 /\ phase P false 0 1 false 0 q' t.
  Proof.
    intros P p m y n q t H. inversion H as [F|P0 x EP F|P0 x q0 EP F|P0 x q0 EP F|P0 q0 EP F|P0 x q0 n0 EP F B N|P0 x q0 EP F B N]; subst.
    exists x, q0. repeat (split; auto). apply PhMore; auto. now rewrite <- app_assoc.
  Qed.
  Lemma phase_pend : forall P f p m y n q t, phase P f (S p) m y n q t -> p = 0 /\ m = 0 /\ y = false /\ n = 0 /\ q <> [].
  Proof. intros P f p m y n q t H. inversion H; subst. repeat (split; auto). discriminate. Qed.
  Lemma phase_more : forall P p m y n q t, phase P false p (S m) y n q t ->
    p = 0 /\ m = 0 /\ y = false /\ n = 0 /\
    match q with [] => phase P false 0 0 false 0 [] t | v :: _ => phase P false 0 0 true 0 q (t ++ [WStart v]) end.
  Proof.
    intros P p m y n q t H. inversion H as [F|P0 x EP F|P0 x q0 EP F|P0 x q0 EP F|P0 q0 EP F|P0 x q0 n0 EP F B N|P0 x q0 EP F B N]; subst.
    repeat (split; auto). destruct q as [|v q]; [rewrite app_nil_r; now apply PhIdle|]. apply PhFly; auto. discriminate.
  Qed.
  Lemma phase_fi : forall P f p m y n q t, phase P f p m y (S n) q t ->
    p = 0 /\ m = 0 /\ y = false /\ n = 0 /\ q <> [] /\ phase P f 0 0 false 0 q (t ++ [WFinish SOk]).
  Proof.
    intros P f p m y n q t H. inversion H as [F|P0 x EP F|P0 x q0 EP F|P0 x q0 EP F|P0 q0 EP F|P0 x q0 n0 EP F B N|P0 x q0 EP F B N]; subst.
    destruct quiet eqn:QQ; [discriminate|]. inversion N; subst. repeat (split; auto); [discriminate|].
    rewrite <- app_assoc. apply PhFailed; auto.
  Qed.

  Definition fintr (s : wst) (a : option witem) (more : nat) (st : status) : list wlab :=
    if w_fin s && negb (isEmpty a) && match w_q s with [] => true | _ => false end && (more =? 0) then [WFinish st] else [].
  (** The status must be OK if the source completed. *)
  Definition stok (past : list wev) (st : status) : Prop := st = SOk \/ st = SInternal /\ In EErr past.

  Record J (evs : list wev) (total : nat) (s : wst) (t0 : list witem) (G : list witem) (tr : list wlab) : Prop := MkJ {
    j_off : w_off s = false;
    j_gok : Forall gok G;
    j_rep : count isCb G + count isRep tr = total;
    j_ex : exists a es past tr0 st,
      t0 = otl a ++ map ISrc es /\ aok a /\ evs = past ++ cur a ++ es /\
      w_fin s = existsb terminal past /\
      (if w_lock s then 1 else 0) = count isPop G + count isMore G + count isUn G + acs a /\
      phase (vals past) (isFirst a) (count isLk G + count isPop G) (count isMore G) (w_fly s) (count isFi G) (w_q s) tr0 /\
      (match a with Some (IEmpty e) => stok past e /\ w_fin s = true | _ => True end) /\
      stok past st /\ tr = tr0 ++ fintr s a (count isMore G) st
  }.

  Lemma phase_perm : forall P f p m y n q t p' m' n', phase P f p m y n q t -> p = p' -> m = m' -> n = n' -> phase P f p' m' y n' q t.
  Proof. intros. now subst. Qed.

  (** Well-formed event lists: nothing after the terminal event. *)
  Fixpoint wf (l : list wev) : Prop :=
    match l with [] => True | ENext _ :: r => wf r | _ :: r => r = [] end.
  Lemma wf_past : forall past r, wf (past ++ r) -> existsb terminal past = true -> r = [].
  Proof.
    induction past as [|e past IH]; intros r W T; cbn in *; [discriminate|].
    destruct e; cbn in *; [eauto| |]; destruct past; cbn in W; auto; discriminate.
  Qed.

  Lemma stok_app : forall past e st, stok past st -> stok (past ++ e) st.
  Proof. intros past e st [->|(-> & I)]; [now left|]. right. split; auto. apply in_or_app. now left. Qed.

  Lemma J_src : forall evs total s it rest G tr s' its ls, wf evs ->
    J evs total s (it :: rest) G tr -> wstep fl s it = Some (s', its, ls) -> J evs total s' (its ++ rest) G (tr ++ ls).
  Proof.
    intros evs total s it rest G tr s' its ls W [OFF GOK REP (a & es & past & tr0 & st & T0 & A & EV & FI & LO & PH & SE & SO & TR)] ST.
    destruct a as [i|]; cbn [otl app] in T0.
    - inversion T0; subst i rest. clear T0.
      destruct it as [e|e|v| |e|e|ok| | | | |e| |]; cbn [aok] in A; try contradiction; cbn [wstep] in ST.
      + destruct (w_lock s) eqn:LK; [discriminate|]. inversion ST; subst s' its ls. rewrite app_nil_r. split; auto.
        exists (Some (match e with ENext v => IPush v | EErr => IFin SInternal | EDone => IFin SOk end)), es, past, tr0, st.
        cbn [isFirst] in PH. cbn [acs] in LO.
        destruct e; cbn [cur acs isFirst otl app aok set_lock w_lock w_q w_fin w_fly]; repeat (split; auto); try lia; auto; subst tr; unfold fintr; cbn; auto.
      + inversion ST; subst s' its ls. rewrite app_nil_r. split; auto. cbn [cur] in EV. cbn [isFirst acs] in *.
        assert (NT : existsb terminal past = false).
        { destruct (existsb terminal past) eqn:Z; auto. rewrite EV in W. apply wf_past in W; auto. discriminate. }
        exists (Some IFirst), es, (past ++ [ENext v]), tr0, st. rewrite EV.
        cbn [cur acs isFirst otl app set_q w_lock w_q w_fin w_fly]. rewrite vals_app, existsb_app. cbn [vals existsb terminal].
        rewrite orb_false_r, <- app_assoc.
        split; auto. split; [exact I|]. split; auto. split; auto. split; auto.
        split; [|split; auto; split; [now apply stok_app|]].
        * assert (M0 : count isMore G = 0) by (destruct (w_lock s); lia). rewrite M0 in *. now apply phase_push.
        * subst tr. unfold fintr. cbn. rewrite FI, NT. reflexivity.
      + (* IFirst *)
        cbn [cur isFirst acs app] in *.
        assert (NT : existsb terminal past = false \/ es = []).
        { destruct (existsb terminal past) eqn:Z; auto. right. rewrite EV in W. now apply wf_past in W. }
        assert (LK : w_lock s = true /\ count isPop G = 0 /\ count isMore G = 0 /\ count isUn G = 0).
        { destruct (w_lock s); [|lia]. repeat split; lia. }
        destruct LK as (LK & C1 & C2 & C3). rewrite C1, C2 in *.
        destruct (phase_first _ _ _ _ _ _ PH) as [(v & Q & PH')|((x & y & q & Q) & PH')]; rewrite Q in ST; cbn [start] in ST; inversion ST; subst s' its ls.
        * split; auto. { rewrite count_app, count_cons, count_nil. cbn. lia. }
          exists (Some IUnlock), es, past, (tr0 ++ [WStart v]), st. cbn [otl app aok cur acs isFirst set_fly w_lock w_q w_fin w_fly]. rewrite C1, C2.
          repeat (split; auto). subst tr. unfold fintr. cbn [set_fly w_fin w_q]. rewrite Q, !andb_false_r. cbn. now rewrite !app_nil_r.
        * rewrite app_nil_r. split; auto.
          exists (Some IUnlock), es, past, tr0, st. cbn [otl app aok cur acs isFirst]. rewrite C1, C2.
          repeat (split; auto).
      + (* IFin *)
        inversion ST; subst s' its ls. rewrite app_nil_r. split; auto. cbn [isFirst acs] in *.
        assert (C : exists t, cur (Some (IFin e)) = [t] /\ terminal t = true /\ vals [t] = [] /\ stok [t] e /\ aok (Some (IEmpty e))).
        { destruct e; cbn; [exists EDone|exists EErr|contradiction]; cbn; repeat split; auto; [now left|right; split; auto; now left]. }
        destruct C as (t & C & TT & VT & SK & AE). rewrite C in EV.
        exists (Some (IEmpty e)), es, (past ++ [t]), tr0, st.
        assert (NT : existsb terminal past = false).
        { destruct (existsb terminal past) eqn:Z; auto. rewrite EV in W. apply wf_past in W; auto. discriminate. }
        cbn [otl app cur acs isFirst set_fin w_lock w_q w_fin w_fly]. rewrite vals_app, existsb_app, VT, app_nil_r, <- app_assoc. cbn [existsb]. rewrite TT, orb_true_r.
        repeat (split; auto).
        * destruct SK as [->|(-> & I)]; [now left|]. right. split; auto. apply in_or_app. now right.
        * now apply stok_app.
        * subst tr. unfold fintr. rewrite FI, NT. reflexivity.
      + (* IEmpty *)
        inversion ST; subst s' its ls. cbn [isFirst acs] in *.
        assert (LK : w_lock s = true /\ count isPop G = 0 /\ count isMore G = 0 /\ count isUn G = 0).
        { destruct (w_lock s); [|lia]. repeat split; lia. }
        destruct LK as (LK & C1 & C2 & C3).
        assert (NF : fintr s (Some (IEmpty e)) (count isMore G) st = []) by (unfold fintr; cbn; now rewrite andb_false_r).
        rewrite NF, app_nil_r in TR. subst tr0.
        split; auto. { rewrite count_app. destruct (w_q s); cbn; rewrite ?count_cons, count_nil; cbn; lia. }
        exists (Some IUnlock), es, past, tr, e. cbn [otl app cur acs isFirst aok].
        cbn [cur app] in EV. repeat (split; auto); [apply SE|]. unfold fintr. rewrite C2. cbn [isEmpty negb Nat.eqb].
        rewrite andb_true_r, andb_true_r.
        destruct SE as (SE & ->). now destruct (w_q s).
      + inversion ST; subst s' its ls. rewrite app_nil_r. split; auto. cbn [isFirst acs cur app] in *.
        exists None, es, past, tr0, st. cbn [otl app cur acs isFirst set_lock w_lock w_q w_fin w_fly].
        assert (LK : count isPop G + count isMore G + count isUn G = 0) by (destruct (w_lock s); lia).
        repeat (split; auto); try lia.
    - destruct es as [|e es]; [discriminate|]. inversion T0; subst it rest. cbn [wstep] in ST. rewrite OFF in ST. inversion ST; subst s' its ls.
      rewrite app_nil_r. split; auto. exists (Some (ILockE e)), es, past, tr0, st. cbn [cur app acs isFirst otl aok] in *. repeat (split; auto).
  Qed.

  Ltac cts := rewrite ?count_app, ?count_cons, ?count_nil in *; cbn [isCb isLk isPop isMore isUn isFi isRep] in *.

  Lemma J_cb : forall evs total s t0 it G its s' ls tr, J evs total s t0 (it :: G) tr -> wstep fl s it = Some (s', its, ls) ->
    J evs total s' t0 (its ++ G) (tr ++ ls).
  Proof.
    intros evs total s t0 it G its s' ls tr [OFF GOK REP (a & es & past & tr0 & st & T0 & A & EV & FI & LO & PH & SE & SO & TR)] ST.
    inversion GOK as [|x y G1 G2]; subst x y. unfold fintr in TR.
    destruct it as [e|e|v| |e|e|ok| | | | |e| |]; cbn [gok] in G1; try contradiction; cbn [wstep] in ST; cts.
    - (* OnWriteDone *)
      destruct (w_fly s) eqn:FL; [|discriminate]. inversion ST; subst s' its ls.
      destruct (phase_cb _ _ _ _ _ _ _ PH) as (C1 & C2 & C3 & Q & PO & PF). cbn [Nat.add] in C2, C3.
      split; auto.
      { apply Forall_app. split; auto. destruct ok; [repeat constructor|]. unfold on_fail. destruct quiet eqn:QQ; repeat constructor; exact QQ. }
      { cts. destruct ok; cts; [lia|]. unfold on_fail. destruct quiet; cts; lia. }
      exists a, es, past, (tr0 ++ [if ok then WDone else WFail]), st. cbn [set_fly w_lock w_q w_fin w_fly].
      repeat (split; auto).
      + destruct ok; cts; [lia|]. unfold on_fail. destruct quiet; cts; lia.
      + destruct ok; [eapply phase_perm; [exact PO|cts; lia..]|]. eapply phase_perm; [exact (PF (G1 eq_refl))|..]; unfold on_fail; destruct quiet; cts; lia.
      + subst tr. unfold fintr. cbn [set_fly w_fin w_q]. destruct (w_q s); [contradiction|]. rewrite !andb_false_r. cbn. now rewrite !app_nil_r.
    - (* lock *)
      destruct (w_lock s) eqn:LK; [discriminate|]. inversion ST; subst s' its ls. rewrite app_nil_r.
      split; auto; [cbn; now constructor|]. exists a, es, past, tr0, st. cts. cbn [set_lock w_lock w_q w_fin w_fly].
      repeat (split; auto); [lia|]. eapply phase_perm; [exact PH|lia..].
    - (* pop *)
      cbn [Nat.add] in *. rewrite Nat.add_succ_r in PH.
      assert (NA : acs a = 0 /\ count isPop G = 0) by (destruct (w_lock s); lia). destruct NA as (NA & NP).
      assert (NF : isFirst a = false) by (destruct a as [[]|]; auto; discriminate). rewrite NF in *.
      destruct (phase_pop _ _ _ _ _ _ _ PH) as (v & q' & Q & C1 & C2 & C3 & C4 & PM).
      rewrite Q in *. inversion ST; subst s' its ls. rewrite app_nil_r.
      split; auto; [cbn; now constructor|]. exists a, es, past, tr0, st. cts. cbn [set_q w_lock w_q w_fin w_fly].
      repeat (split; auto); try lia.
      + rewrite NF, C3. eapply phase_perm; [exact PM|lia..].
      + subst tr. unfold fintr. cbn [set_q w_fin w_q Nat.add Nat.eqb]. now rewrite andb_false_r, andb_false_r.
    - (* more *)
      cbn [Nat.add] in *.
      assert (NA : acs a = 0 /\ count isMore G = 0) by (destruct (w_lock s); lia). destruct NA as (NA & NP).
      assert (NF : isFirst a = false) by (destruct a as [[]|]; auto; discriminate). rewrite NF in *.
      assert (NE : isEmpty a = false) by (destruct a as [[]|]; auto; discriminate).
      destruct (phase_more _ _ _ _ _ _ _ PH) as (C1 & C2 & C3 & C4 & PM). cbn [Nat.eqb] in TR. rewrite andb_false_r, app_nil_r in TR. subst tr0.
      destruct (w_q s) as [|v q] eqn:Q; cbn [start] in ST; inversion ST; subst s' its ls.
      + split; auto; [cbn; now constructor|cts; destruct (w_fin s); cts; lia|].
        exists a, es, past, tr, SOk. cts. rewrite Q, NF, C3. cbn [Nat.add]. repeat (split; auto); try lia.
        * eapply phase_perm; [exact PM|lia..].
        * now left.
        * unfold fintr. rewrite NE, Q, NP. cbn. now rewrite !andb_true_r.
      + split; auto; [cbn; now constructor|cts; lia|].
        exists a, es, past, (tr ++ [WStart v]), st. cts. cbn [set_fly w_lock w_q w_fin w_fly]. rewrite Q, NF. repeat (split; auto); try lia.
        * eapply phase_perm; [exact PM|lia..].
        * unfold fintr. cbn [set_fly w_fin w_q]. rewrite Q, !andb_false_r. cbn. now rewrite app_nil_r.
    - (* unlock *)
      inversion ST; subst s' its ls. rewrite app_nil_r. cbn [app].
      split; auto. exists a, es, past, tr0, st. cbn [set_lock w_lock w_q w_fin w_fly]. repeat (split; auto); try lia.
      destruct (w_lock s); lia.
    - (* Finish(OK) after a failed write *)
      destruct e; try contradiction. inversion ST; subst s' its ls. cbn [Nat.add app] in *.
      destruct (phase_fi _ _ _ _ _ _ _ _ PH) as (C1 & C2 & C3 & C4 & Q & PM).
      split; auto; [cts; lia|]. exists a, es, past, (tr0 ++ [WFinish SOk]), st. rewrite C2, C3. repeat (split; auto); try lia.
      + eapply phase_perm; [exact PM|lia..].
      + subst tr. unfold fintr. destruct (w_q s); [contradiction|]. rewrite !andb_false_r. cbn. now rewrite !app_nil_r.
  Qed.

  Lemma J_perm : forall evs total s t0 G G' tr, Permutation G G' -> J evs total s t0 G tr -> J evs total s t0 G' tr.
  Proof.
    intros evs total s t0 G G' tr PM [OFF GOK REP (a & es & past & tr0 & st & T0 & A & EV & FI & LO & PH & SE & SO & TR)].
    split; auto.
    - eapply Permutation_Forall; eauto.
    - now rewrite <- (count_perm _ _ _ PM).
    - exists a, es, past, tr0, st. rewrite <- !(count_perm _ _ _ PM). repeat (split; auto).
  Qed.

  Lemma J_exec : forall evs total gs tr c, wf evs ->
    gexec (wstep fl) (w_init, map ISrc evs :: gs) tr c ->
    Forall gok (concat gs) -> count isCb (concat gs) = total ->
    (forall f, In f [isLk; isPop; isMore; isUn; isFi] -> count f (concat gs) = 0) ->
    exists t0 gs', snd c = t0 :: gs' /\ J evs total (fst c) t0 (concat gs') tr.
  Proof.
    intros evs total gs tr c W E GO TO CN.
    refine (gexec_tinv (wstep fl) (fun s ts tr => exists t0 gs', ts = t0 :: gs' /\ J evs total s t0 (concat gs') tr) _ _ _ _ E _).
    - intros s ts1 it rest ts2 tr' s' its ls (t0 & gs' & T & JJ) ST. destruct ts1 as [|t1 ts1]; cbn [app] in *; inversion T; subst.
      + exists (its ++ rest), gs'. split; auto. eapply J_src; eauto.
      + exists t0, (ts1 ++ (its ++ rest) :: ts2). split; auto. rewrite concat_app in *. cbn [concat app] in *.
        eapply J_perm; [|eapply J_cb; [eapply J_perm; [|exact JJ]|exact ST]].
        * rewrite <- app_assoc. apply Permutation_app_swap_app.
        * symmetry. apply Permutation_middle.
    - cbn [fst snd]. eexists. exists gs. split; [reflexivity|]. split; auto; [rewrite count_nil; lia|].
      exists None, evs, [], [], SOk. cbn [otl app aok cur w_init w_lock w_q w_fin w_fly existsb vals acs isFirst].
      rewrite !CN by (cbn; auto 10). repeat (split; auto); [apply (PhIdle [] false); auto|now left].
  Qed.
End GrpcP.
