(** C63: the gRPC reader. *)
From Coq Require Import Permutation.
From Verif Require Import Base Concur GrpcSpec GrpcModel.

Section ReadP.
  Context {V : Type}.
  Definition iN (i : ritem V) := match i with QNext _ => true | _ => false end.
  Definition iO (i : ritem V) := match i with QOut => true | _ => false end.
  Definition iS (i : ritem V) := match i with QStart => true | _ => false end.
  Definition iR (i : ritem V) := match i with QRet => true | _ => false end.
  Definition iE (i : ritem V) := match i with QEnd _ => true | _ => false end.
  Definition iF (i : ritem V) := match i with QEndOut => true | _ => false end.
  Definition fine (i : ritem V) : Prop :=
    match i with QCancel _ => False | QDone e | QEnd e => (forall v, e <> Next v) | _ => True end.

  Definition RI (s : rdst) (G : list (ritem V)) (tr : list (rlab V)) : Prop :=
    Forall fine G /\
    count iN G + count iO G + count iS G + count iR G = r_busy s /\
    (if r_fly s then 1 else 0) + r_busy s <= 1 /\
    (if r_over s then r_fly s = false /\ r_busy s = 0 /\ count iE G + count iF G <= 1 else count iE G + count iF G = 0) /\
    exists st, rmoves tr st /\
      match st with
      | RIdle => count iN G = 0 /\ count iO G = 0 /\ count iF G = 0 /\ (r_over s = true -> count iE G = 1)
      | RGot v => count iN G = 1 /\ (forall w, In (QNext w) G -> w = v)
      | RCall => count iO G = 1
      | RLast => count iF G = 1
      | REnd => count iE G + count iF G = 0 /\ r_over s = true
      end.

  Ltac cts := rewrite ?count_app, ?count_cons, ?count_nil in *; cbn [iN iO iS iR iE iF] in *.
  Lemma RI_step : forall s it G tr s' its ls, RI s (it :: G) tr -> rstep s it = Some (s', its, ls) -> RI s' (its ++ G) (tr ++ ls).
  Proof.
    intros s it G tr s' its ls (FI & BU & FL & OV & st & MV & ST) R.
    inversion FI as [|x y F1 F2]; subst x y.
    destruct it as [[v|]|v| | | |e|e|e|]; cbn [fine] in F1; cbn [rstep] in R.
    - destruct (r_fly s) eqn:FY; [|discriminate]. destruct (r_over s) eqn:RO; [discriminate|]. inversion R; subst s' its ls. cts.
      assert (st = RIdle) as -> by (destruct st; auto; exfalso; first [lia | destruct ST; first [lia | congruence]]).
      split; [cbn; constructor; auto; exact I|]. cts. cbn [r_busy r_fly r_over]. rewrite ?RO. split; [lia|]. split; [lia|]. split; [lia|].
      exists (RGot v). split; [econstructor; [exact MV|constructor]|]. split; [lia|].
      intros w [W|W]; [congruence|]. assert (X : count iN G = 0) by lia. apply (count_zero _ _ X) in W. discriminate.
    - destruct (r_fly s) eqn:FY; [|discriminate]. destruct (r_over s) eqn:RO; [discriminate|]. inversion R; subst s' its ls. cts.
      assert (st = RIdle) as -> by (destruct st; auto; exfalso; first [lia | destruct ST; first [lia | congruence]]).
      split; [cbn; constructor; auto; exact I|]. cts. cbn [r_busy r_fly r_over]. rewrite ?RO. split; [lia|]. split; [lia|]. split; [lia|].
      exists RIdle. rewrite app_nil_r. split; [exact MV|]. repeat split; try lia; discriminate.
    - inversion R; subst s' its ls. cts.
      assert (RO : r_over s = false) by (destruct (r_over s); auto; lia). rewrite RO in *.
      assert (X : st = RGot v). { destruct st; try (exfalso; lia). destruct ST as (_ & ST). f_equal. symmetry. apply ST. now left. } subst st.
      split; [cbn; constructor; auto; exact I|]. cts. rewrite RO. split; [lia|]. split; [lia|]. split; [lia|].
      exists RCall. split; [econstructor; [exact MV|constructor]|]. lia.
    - inversion R; subst s' its ls. cts.
      assert (RO : r_over s = false) by (destruct (r_over s); auto; lia). rewrite RO in *.
      assert (st = RCall) as -> by (destruct st; auto; exfalso; first [lia | destruct ST; first [lia | congruence]]).
      split; [cbn; constructor; auto; exact I|]. cts. rewrite RO. split; [lia|]. split; [lia|]. split; [lia|].
      exists RIdle. split; [econstructor; [exact MV|constructor]|]. repeat split; try lia; discriminate.
    - inversion R; subst s' its ls. cts. cbn [r_busy r_fly r_over].
      assert (RO : r_over s = false) by (destruct (r_over s); auto; lia). rewrite RO in *.
      assert (st = RIdle) as -> by (destruct st; auto; exfalso; first [lia | destruct ST; first [lia | congruence]]).
      split; [exact F2|]. cbn [app r_busy r_fly r_over]. cts. split; [lia|]. split; [destruct (r_fly s); lia|]. split; [lia|].
      exists RIdle. rewrite app_nil_r. split; [exact MV|]. repeat split; try lia; discriminate.
    - inversion R; subst s' its ls. cts. cbn [r_busy r_fly r_over].
      assert (RO : r_over s = false) by (destruct (r_over s); auto; lia). rewrite RO in *.
      assert (st = RIdle) as -> by (destruct st; auto; exfalso; first [lia | destruct ST; first [lia | congruence]]).
      split; [exact F2|]. cbn [app r_busy r_fly r_over]. cts. split; [lia|]. split; [destruct (r_fly s); lia|]. split; [lia|].
      exists RIdle. rewrite app_nil_r. split; [exact MV|]. repeat split; try lia; discriminate.
    - destruct (r_fly s) eqn:FY; [discriminate|]. destruct (r_busy s =? 0) eqn:B0; [|discriminate]. apply Nat.eqb_eq in B0.
      destruct (r_over s) eqn:RO; [discriminate|]. inversion R; subst s' its ls. cts. cbn [r_busy r_fly r_over].
      assert (st = RIdle) as -> by (destruct st; auto; exfalso; first [lia | destruct ST; first [lia | congruence]]).
      split; [cbn; now constructor|]. cbn [r_busy r_fly r_over]. cts. rewrite B0 in *. split; [lia|]. split; [lia|]. split; [repeat split; lia|].
      exists RIdle. rewrite app_nil_r. split; [exact MV|]. repeat split; lia.
    - contradiction.
    - inversion R; subst s' its ls. cts. destruct (r_over s) eqn:RO; [|lia]. destruct OV as (O1 & O2 & O3).
      assert (st = RIdle) as -> by (destruct st; auto; exfalso; first [lia | destruct ST; first [lia | congruence]]).
      split; [cbn; constructor; auto; exact I|]. cts. rewrite RO, ?O1, ?O2. split; [lia|]. split; [lia|]. split; [repeat split; lia|].
      exists RLast. split; [econstructor; [exact MV|now constructor]|]. lia.
    - inversion R; subst s' its ls. cts. destruct (r_over s) eqn:RO; [|lia]. destruct OV as (O1 & O2 & O3).
      assert (st = RLast) as -> by (destruct st; auto; exfalso; first [lia | destruct ST; first [lia | congruence]]).
      split; [exact F2|]. cbn [app r_busy r_fly r_over]. cts. rewrite RO, ?O1, ?O2. split; [lia|]. split; [lia|]. split; [repeat split; lia|].
      exists REnd. split; [econstructor; [exact MV|constructor]|]. split; auto. lia.
  Qed.
End ReadP.

Lemma reader_inv : forall V (ts : list (list (ritem V))) tr c,
  (forall t i, In t ts -> In i t -> (exists o, i = QCb o) \/ exists e, i = QDone e /\ forall v, e <> Next v) ->
  gexec rstep (r_start ts) tr c -> RI (fst c) (concat (snd c)) tr.
Proof.
  intros V ts tr c H E.
  assert (K : RI (fst c) (concat (snd c)) tr).
  { refine (gexec_inv rstep RI _ _ _ _ _ E _).
    - intros s l l' t PM (A & B & C & D & st & M & S). split; [eapply Permutation_Forall; eauto|]. rewrite <- !(count_perm _ _ _ PM).
      repeat (split; auto). exists st. split; auto. destruct st; rewrite <- ?(count_perm _ _ _ PM); auto.
      destruct S as (S1 & S2). split; auto. intros w W. apply S2. eapply Permutation_in; [symmetry; exact PM|auto].
    - intros s it l t s' its ls R ST. eapply RI_step; eauto.
    - cbn [r_start fst snd r_init].
      assert (Z : forall f, (forall o, f (QCb o) = false) -> (forall e, f (QDone e) = false) -> count f (concat ts) = 0).
      { intros f F1 F2. apply count_zero_of. intros x X. apply in_concat in X as (t & T & X). destruct (H t x T X) as [(o & ->)|(e & -> & _)]; auto. }
      unfold RI. cbn [r_fly r_busy r_over]. rewrite !Z by reflexivity.
      split; [|cbn; repeat (split; [auto; lia|]); exists RIdle; split; [constructor|]; repeat split; discriminate].
      apply Forall_forall. intros x X. apply in_concat in X as (t & T & X). destruct (H t x T X) as [(o & ->)|(e & -> & N)]; cbn; auto. }
  exact K.
Qed.

(** The reports of the library, each inner list one of its threads: values read, a failed read,
    the end of the call. *)
Theorem C63_reader_partial : forall V (ts : list (list (ritem V))) tr c,
  (forall t i, In t ts -> In i t -> (exists o, i = QCb o) \/ exists e, i = QDone e /\ forall v, e <> Next v) ->
  gexec rstep (r_start ts) tr c -> exists st, rmoves tr st.
Proof.
  intros V ts tr c H E. destruct (reader_inv V ts tr c H E) as (_ & _ & _ & _ & st & M & _). eauto.
Qed.
Print Assumptions C63_reader_partial.

(** C63.  A failed read is the last: no further read is started, so no value is read or emitted after it. *)
Definition over_now {V} (s : rdst) (l : list (ritem V)) (tr : list (rlab V)) : Prop :=
  r_fly s = false /\ Forall fine l /\ (forall x, In x l -> iN x = false /\ iO x = false /\ iS x = false) /\
  (forall v, ~ In (RRead v) tr) /\ (forall v, ~ In (RIn (Next v)) tr).
Theorem C63_failed_read_is_last : forall V (ts : list (list (ritem V))) tr s a r b s' its ls tr2 c,
  (forall t i, In t ts -> In i t -> (exists o, i = QCb o) \/ exists e, i = QDone e /\ forall v, e <> Next v) ->
  gexec rstep (r_start ts) tr (s, a ++ (QCb None :: r) :: b) -> rstep s (QCb None) = Some (s', its, ls) ->
  gexec rstep (s', a ++ (its ++ r) :: b) tr2 c ->
  (forall v, ~ In (RRead v) (ls ++ tr2)) /\ (forall v, ~ In (RIn (Next v)) (ls ++ tr2)).
Proof.
  intros V ts tr s a r b s' its ls tr2 c H E ST E2. destruct (reader_inv V ts _ _ H E) as (FI & BU & FL & _).
  cbn [fst snd] in *. cbn [rstep] in ST. destruct (r_fly s) eqn:FY; [|discriminate]. destruct (r_over s) eqn:RO; [discriminate|]. cbn in ST.
  injection ST as <- <- <-. cbn [app].
  rewrite concat_app in FI, BU. cbn [concat app] in FI, BU. rewrite !count_app, !count_cons, !count_app in BU. cbn [iN iO iS iR] in BU.
  assert (Z : r_busy s = 0) by lia.
  assert (G : over_now (fst c) (concat (snd c)) tr2).
  { refine (gexec_inv rstep over_now _ _ _ _ _ E2 _).
    - intros s0 l l' t PM (A & B & C & D & F). split; auto. split; [eapply Permutation_Forall; eauto|]. split; auto.
      intros x X. apply C. eapply Permutation_in; [symmetry|]; eauto.
    - intros s0 it l t s1 i1 l1 (A & B & C & D & F) R1. destruct (C it (or_introl eq_refl)) as (C1 & C2 & C3).
      assert (C' : forall x, In x l -> iN x = false /\ iO x = false /\ iS x = false) by (intros; apply C; now right).
      inversion B as [|x y F1 F2]; subst x y.
      destruct it as [o|v| | | |e|e|e|]; try discriminate; cbn [rstep] in R1.
      + rewrite A in R1. discriminate.
      + injection R1 as <- <- <-. rewrite app_nil_r. repeat split; auto; apply C'; auto.
      + destruct (negb (r_fly s0) && (r_busy s0 =? 0) && negb (r_over s0)); [|discriminate]. injection R1 as <- <- <-. rewrite app_nil_r.
        split; auto. split; [cbn; constructor; auto|]. split; [|auto]. intros x [<-|X]; auto.
      + destruct F1.
      + injection R1 as <- <- <-. cbn in F1. split; auto. split; [cbn; constructor; auto; exact I|]. split; [intros x [<-|X]; auto|].
        split; intros v X; apply in_app_iff in X as [X|[X|[]]]; try discriminate; [now apply (D v)|now apply (F v)|]. injection X as X. now apply (F1 v).
      + injection R1 as <- <- <-. split; auto. split; auto. split; auto.
        split; intros v X; apply in_app_iff in X as [X|[X|[]]]; try discriminate; [now apply (D v)|now apply (F v)].
    - cbn [fst snd r_fly]. rewrite concat_app. cbn [concat app].
      apply Forall_app in FI as (FI1 & FI2). inversion FI2 as [|x y _ FI3]; subst x y.
      split; [reflexivity|]. split; [apply Forall_app; split; auto; constructor; auto; exact I|]. split; [|split; intros v []].
      assert (Q : forall f : ritem V -> bool, count f (concat a) = 0 -> count f r + count f (concat b) = 0 -> forall x, In x (concat a ++ r ++ concat b) -> f x = false).
      { intros f Q1 Q2 x X. rewrite !in_app_iff in X. destruct X as [X|[X|X]]; [apply (count_zero f (concat a)) in X|apply (count_zero f r) in X|apply (count_zero f (concat b)) in X]; auto; lia. }
      intros x X. assert (Y : x = QRet \/ In x (concat a ++ r ++ concat b)) by (rewrite !in_app_iff in *; cbn in X; rewrite ?in_app_iff in X; intuition).
      destruct Y as [->|Y]; [auto|]. split; [|split]; apply Q; auto; lia. }
  destruct G as (_ & _ & _ & G1 & G2). auto.
Qed.
Print Assumptions C63_failed_read_is_last.

(** OnCancel of a server reactor may run while OnReadDone runs: the observable (a subject
    without lock) starts a second emission inside the first. *)
Theorem C63_cancel_refuted : exists tr c, gexec rstep (r_start [[QCb (Some 1)]; [QCancel (Err 7)]]) tr c /\
  tr = [RRead 1; RIn (Next 1); RIn (Err 7)] /\ forall st, ~ rmoves tr st.
Proof.
  destruct (grun rstep [0;0;1;1] (r_start [[QCb (Some 1)]; [QCancel (Err 7)]])) as [[tr c]|] eqn:R; [|vm_compute in R; discriminate].
  exists tr, c. split; [eapply grun_sound; exact R|]. vm_compute in R. inversion R; subst. split; auto.
  assert (S1 : forall (tr tr' : list (rlab nat)) l st, rmoves tr' st -> tr' = tr ++ [l] -> exists s, rmoves tr s /\ rmove s l st).
  { intros tr tr' l st M E. destruct M as [|tr0 s l0 s' M MV]; [now destruct tr|]. apply app_inj_tail in E as (-> & ->). eauto. }
  intros st M. destruct (S1 [RRead 1; RIn (Next 1)] _ (RIn (Err 7)) st M eq_refl) as (s1 & M1 & V1).
  destruct (S1 [RRead 1] _ (RIn (Next 1)) s1 M1 eq_refl) as (s2 & M2 & V2).
  destruct (S1 [] _ (RRead 1) s2 M2 eq_refl) as (s3 & M3 & V3).
  inversion V3; subst. inversion V2; subst; inversion V1.
Qed.
Print Assumptions C63_cancel_refuted.

Example C63_case : exists tr c, gexec rstep (r_start [[QCb (Some 1); QCb None]; [QCb (Some 2); QDone (@Done nat)]]) tr c /\ gfinished c /\
  tr = [RRead 1; RIn (Next 1); ROut; RRead 2; RIn (Next 2); ROut; RIn Done; ROut].
Proof.
  destruct (grun rstep [0;0;0;0;1;1;1;1;0;0;1;1;1] (r_start [[QCb (Some 1); QCb None]; [QCb (Some 2); QDone (@Done nat)]])) as [[tr c]|] eqn:R; [|vm_compute in R; discriminate].
  exists tr, c. split; [eapply grun_sound; exact R|]. vm_compute in R. inversion R; subst. split; auto.
  intros t [<-|[<-|[]]]; reflexivity.
Qed.
