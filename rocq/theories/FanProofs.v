(** window, group_by, window_toggle: proofs. *)
From Verif Require Import Base Machine MachineProofs SubjSpec SubjModel SubjProofs FanSpec FanModel.

Section FanP.
  Context {V : Type} (D : machine V) (LD : lawful D) (O : machine nat) (LO : lawful O) (now : nat -> list nat) (d0 : mst D) (o0 : mst O).
  Notation fan := (fan D O).
  Notation mop := (mop (V := V)).
  Notation nn := (fun (_ : nat) (_ : V) => @nil act).

  (** ** One subject *)
  Definition has_term (h : list (sop V)) : bool := existsb (fun o => match o with OEmit e => is_term e | _ => false end) h.
  Record GI (h : list (sop V)) (g : subj D) (fn : fin V) (on : nat -> bool) : Prop := {
    gi_run : sop_run D nn (subj_init D d0) h = Some g;
    gi_inv : Inv D fn on g;
    gi_on : forall j, on j = true -> In j (subs h);
    gi_dead : fn <> Open -> forall j, In j (subs h) -> mdisp D (s_sub D g j) = true;
    gi_term : has_term h = true -> fn <> Open;
    gi_kept : fn <> Dropped;
    gi_all : fn = Open -> forall j, In j (subs h) -> on j = true
  }.
  Lemma sop_run_app : forall a g b, sop_run D nn g (a ++ b) = match sop_run D nn g a with Some g' => sop_run D nn g' b | None => None end.
  Proof. induction a as [|o a IH]; intros g b; cbn [app sop_run]; auto. destruct (sop_step D nn g o); auto. Qed.
  Lemma subs_app : forall (a b : list (sop V)), subs (a ++ b) = subs a ++ subs b.
  Proof. intros. unfold subs. now rewrite flat_map_app. Qed.
  Lemma has_term_app : forall a b, has_term (a ++ b) = has_term a || has_term b.
  Proof. intros. apply existsb_app. Qed.

  Lemma run_snoc : forall h g o g', sop_run D nn (subj_init D d0) h = Some g -> sop_step D nn g o = Some g' -> sop_run D nn (subj_init D d0) (h ++ [o]) = Some g'.
  Proof. intros h g o g' R S. rewrite sop_run_app, R. cbn [sop_run]. now rewrite S. Qed.

  Lemma g_sub : forall h g fn on j, GI h g fn on -> ~ In j (subs h) ->
    exists on', GI (h ++ [OSub j]) (on_subscribe D g j) fn on'.
  Proof.
    intros h g fn on j G NI. destruct G as [R I ON DE HT HO AL].
    assert (OF : on j = false) by (destruct (on j) eqn:E; auto; apply ON in E; contradiction).
    assert (R' : sop_run D nn (subj_init D d0) (h ++ [OSub j]) = Some (on_subscribe D g j)) by (eapply run_snoc; eauto; reflexivity).
    assert (HT' : has_term (h ++ [OSub j]) = true -> fn <> Open) by (rewrite has_term_app; cbn; rewrite orb_false_r; auto).
    destruct fn as [|e|] eqn:F; [| |congruence].
    - destruct (subscribe_open D on g j I OF) as [J S]. exists (turn_on on j). constructor; auto.
      + intros k. unfold turn_on. rewrite subs_app, in_app_iff. destruct (Nat.eqb_spec k j) as [->|]; [right; now left | left; auto].
      + intros _ k. unfold turn_on. rewrite subs_app, in_app_iff. destruct (Nat.eqb_spec k j) as [->|NE]; auto. intros [H|[H|[]]]; [auto | congruence].
    - assert (NO : Ended e <> @Open V) by discriminate. destruct (subscribe_over D LD _ on g j I NO) as [J S]. exists on. constructor; auto.
      + intros k H. rewrite subs_app, in_app_iff. auto.
      + intros _ k H. rewrite S. rewrite subs_app, in_app_iff in H. destruct (Nat.eqb_spec k j) as [->|NE].
        * apply (law_term _ LD). pose proof (i_st _ _ _ _ I) as ST. destruct e as [v| |]; auto; try (cbn in ST; destruct (s_st D g); contradiction).
        * destruct H as [H|[H|[]]]; [auto | congruence].
  Qed.
  Lemma g_unsub : forall h g fn on j, GI h g fn on -> GI (h ++ [OUnsub j]) (unsubscribe D g j) fn on.
  Proof.
    intros h g fn on j G. destruct G as [R I ON DE HT HO AL]. constructor; auto.
    - eapply run_snoc; eauto; reflexivity.
    - now apply unsub_inv.
    - intros k H. rewrite subs_app, in_app_iff. auto.
    - intros F k H. rewrite subs_app, in_app_iff in H. destruct H as [H|[]]. rewrite unsub_sub.
      destruct (Nat.eqb_spec k j) as [->|]; [apply (law_kill _ LD) | auto].
    - rewrite has_term_app. cbn. rewrite orb_false_r. auto.
    - intros F k H. rewrite subs_app, in_app_iff in H. destruct H as [H|[]]. auto.
  Qed.
  Lemma g_emit : forall h g fn on e, GI h g fn on ->
    exists g' fn', emit D nn g e = Some g' /\ GI (h ++ [OEmit e]) g' fn' on /\
      (forall j, ~ In j (subs h) \/ mdisp D (s_sub D g j) = true -> s_sub D g' j = s_sub D g j).
  Proof.
    intros h g fn on e G. destruct G as [R I ON DE HT HO AL].
    assert (OFF : forall j, ~ In j (subs h) -> on j = false).
    { intros j NI. destruct (on j) eqn:E; auto. apply ON in E. contradiction. }
    destruct fn as [|x|] eqn:F; [| |congruence].
    - destruct (emit_open D LD on g e I) as (g' & E & J & S). exists g', (if is_term e then Ended e else Open). split; auto. split.
      + constructor; auto.
        * eapply run_snoc; eauto.
        * intros k H. rewrite subs_app, in_app_iff. auto.
        * intros NF k H. rewrite subs_app, in_app_iff in H. destruct H as [H|[]]. destruct (is_term e) eqn:T; [|congruence].
          rewrite S. destruct (on k) eqn:OK; [now apply (law_term _ LD)|]. rewrite AL in OK by auto. discriminate.
        * rewrite has_term_app. cbn. rewrite orb_false_r. destruct (is_term e); [discriminate|]. rewrite orb_false_r. auto.
        * destruct (is_term e); discriminate.
        * intros F2 k H. rewrite subs_app, in_app_iff in H. destruct H as [H|[]]. auto.
      + intros j [H|H]; rewrite S; [rewrite OFF; auto|]. destruct (on j); auto. now apply (law_dead _ LD).
    - exists g, (Ended x). assert (E : emit D nn g e = Some g) by (apply (emit_over D (Ended x) on); auto; discriminate). split; auto. split; auto. constructor; auto.
      + eapply run_snoc; eauto.
      + intros k H. rewrite subs_app, in_app_iff. auto.
      + intros NF k H. rewrite subs_app, in_app_iff in H. destruct H as [H|[]]. auto.
      + discriminate.
      + discriminate.
  Qed.

  (** ** The trace of steps, seen from each subject *)
  Record tstate := TT { ts_o : mst O; ts_known : nat -> bool; ts_lost : nat -> bool; ts_h : nat -> list (sop V) }.
  Definition put (h : nat -> list (sop V)) (i : nat) (l : list (sop V)) : nat -> list (sop V) := fun k => if k =? i then h k ++ l else h k.
  Definition tstep (s : tstate) (m : mop) : tstate :=
    match m with
    | MNew i => TT (mstep O (ts_o s) (Next i)) (fun k => (k =? i) || ts_known s k) (ts_lost s)
                   (put (ts_h s) i (if mdisp O (ts_o s) then [] else map OSub (now i)))
    | MEmit i e => TT (ts_o s) (ts_known s) (ts_lost s) (put (ts_h s) i [OEmit e])
    | MOut e => TT (mstep O (ts_o s) e) (ts_known s) (ts_lost s) (ts_h s)
    | MLost i => TT (ts_o s) (ts_known s) (fun k => (k =? i) || ts_lost s k) (ts_h s)
    | MSub i j => TT (ts_o s) (ts_known s) (ts_lost s) (put (ts_h s) i (if ts_known s i && negb (ts_lost s i) then [OSub j] else []))
    | MUnsub i j => TT (ts_o s) (ts_known s) (ts_lost s) (put (ts_h s) i [OUnsub j])
    | MDrop => TT (mkill O (ts_o s)) (ts_known s) (ts_lost s) (ts_h s)
    end.
  Definition ts_init : tstate := TT o0 (fun _ => false) (fun _ => false) (fun _ => []).

  Definition SI (f : fan) (s : tstate) (i : nat) : Prop :=
    exists g fn on, GI (ts_h s i) g fn on /\ (forall j, s_sub D (f_subs D O f i) j = s_sub D g j) /\ (f_gone D O f = false -> f_subs D O f i = g).
  Record FI (s : tstate) (f : fan) : Prop := {
    fi_out : f_out D O f = ts_o s;
    fi_known : f_gone D O f = false -> forall i, f_known D O f i = ts_known s i;
    fi_lost : f_gone D O f = false -> forall i, f_lost D O f i = ts_lost s i;
    fi_refs : forall i j, In (i, j) (f_refs D O f) <-> In j (subs (ts_h s i));
    fi_real : forall i j, In j (subs (ts_h s i)) -> ts_known s i = true;
    fi_sub : forall i, SI f s i
  }.
  Definition alive_ref (f : fan) (p : nat * nat) : bool := negb (mdisp D (s_sub D (f_subs D O f (fst p)) (snd p))).
  Definition free (f : fan) : bool := mdisp O (f_out D O f) && negb (existsb (alive_ref f) (f_refs D O f)).
  Definition FG (s : tstate) (f : fan) : Prop := FI s f /\ f_gone D O f = free f.
  Lemma free_dead : forall f, free f = true -> mdisp O (f_out D O f) = true /\ forall i j, In (i, j) (f_refs D O f) -> mdisp D (s_sub D (f_subs D O f i) j) = true.
  Proof.
    intros f F. apply andb_prop in F as [F1 F2]. split; auto. intros i j I. destruct (mdisp D (s_sub D (f_subs D O f i) j)) eqn:E; auto.
    assert (X : existsb (alive_ref f) (f_refs D O f) = true) by (apply existsb_exists; exists (i, j); split; auto; unfold alive_ref; cbn; now rewrite E).
    rewrite X in F2. discriminate.
  Qed.
  Lemma dead_free : forall f, mdisp O (f_out D O f) = true -> (forall i j, In (i, j) (f_refs D O f) -> mdisp D (s_sub D (f_subs D O f i) j) = true) -> free f = true.
  Proof.
    intros f F1 F2. unfold free. rewrite F1. cbn. apply negb_true_iff. destruct (existsb (alive_ref f) (f_refs D O f)) eqn:E; auto.
    apply existsb_exists in E as ([i j] & I & A). unfold alive_ref in A. cbn in A. rewrite (F2 i j I) in A. discriminate.
  Qed.

  Lemma settle_FG : forall s f, FI s f -> (f_gone D O f = true -> free f = true) -> FG s (settle D O f).
  Proof.
    intros s f H G. unfold settle. change (mdisp O (f_out D O f) && negb (existsb (holds_ref D O f) (f_refs D O f))) with (free f).
    destruct (f_gone D O f) eqn:E; [split; auto; rewrite G; auto|].
    destruct (free f) eqn:FR; [|split; [auto | congruence]]. destruct H as [H1 H2 H3 H4 H5 H6].
    split; [constructor; cbn [f_out f_subs f_known f_lost f_gone f_refs]; auto; try discriminate|].
    - intro i. destruct (H6 i) as (g & fn & on & G1 & G2 & G3). exists g, fn, on. split; auto. split; [|discriminate]. intro j. cbn [f_subs]. rewrite dispose_sub. auto.
    - symmetry. destruct (free_dead f FR) as [F1 F2]. apply dead_free; auto. intros i j I. cbn [f_subs]. rewrite dispose_sub. now apply F2.
  Qed.

  Lemma put_same : forall h i l, put h i l i = h i ++ l.
  Proof. intros. unfold put. now rewrite Nat.eqb_refl. Qed.
  Lemma put_other : forall h i l k, k <> i -> put h i l k = h k.
  Proof. intros h i l k NE. unfold put. apply Nat.eqb_neq in NE. now rewrite NE. Qed.

  (** An observer is subscribed (the refcount is not disposed). *)
  Lemma add_FI : forall s f i j, FI s f -> f_gone D O f = false -> ts_known s i = true -> ~ In j (subs (ts_h s i)) ->
    FI (TT (ts_o s) (ts_known s) (ts_lost s) (put (ts_h s) i [OSub j])) (add_sub D O i f j).
  Proof.
    intros s f i j [H1 H2 H3 H4 H5 H6] NG KN NI. unfold add_sub. cbn [set_subj f_gone f_out f_subs f_known f_lost f_refs]. rewrite NG.
    constructor; cbn [f_out f_subs f_known f_lost f_gone f_refs ts_o ts_known ts_lost ts_h]; auto.
    - intros k l. destruct (Nat.eq_dec k i) as [->|NE].
      + rewrite put_same, subs_app, in_app_iff. cbn. rewrite H4. split; [intros [E|X]; [injection E as ->; auto | auto] | intros [X|[->|[]]]; auto].
      + rewrite put_other by auto. cbn. rewrite H4. split; [intros [E|X]; [congruence | auto] | auto].
    - intros k l. destruct (Nat.eq_dec k i) as [->|NE]; auto. rewrite put_other by auto. apply H5.
    - intro k. unfold SI. cbn [f_subs f_gone ts_h]. destruct (Nat.eq_dec k i) as [->|NE].
      + rewrite Nat.eqb_refl, put_same. destruct (H6 i) as (g & fn & on & G1 & G2 & G3). rewrite (G3 NG).
        destruct (g_sub _ _ _ _ j G1 NI) as (on' & G'). exists (on_subscribe D g j), fn, on'. auto.
      + rewrite put_other by auto. replace (k =? i) with false by (symmetry; now apply Nat.eqb_neq). pose proof (H6 k) as X; unfold SI in X; rewrite NG in X; exact X.
  Qed.
  Lemma put_put : forall h i a b k, put (put h i a) i b k = put h i (a ++ b) k.
  Proof. intros. unfold put. destruct (k =? i); auto. now rewrite app_assoc. Qed.
  Lemma FI_ext : forall s h f, FI s f -> (forall k, h k = ts_h s k) -> FI (TT (ts_o s) (ts_known s) (ts_lost s) h) f.
  Proof.
    intros s h f [H1 H2 H3 H4 H5 H6] E. constructor; cbn [ts_o ts_known ts_lost ts_h]; auto.
    - intros. rewrite E. apply H4.
    - intros i j. rewrite E. apply H5.
    - intro i. unfold SI. cbn [ts_h]. rewrite E. apply H6.
  Qed.
  Lemma add_all : forall l s f i, FI s f -> f_gone D O f = false -> ts_known s i = true -> NoDup (subs (ts_h s i ++ map OSub l)) ->
    FI (TT (ts_o s) (ts_known s) (ts_lost s) (put (ts_h s) i (map OSub l))) (fold_left (add_sub D O i) l f) /\
    f_gone D O (fold_left (add_sub D O i) l f) = false.
  Proof.
    induction l as [|j l IH]; intros s f i H NG KN ND; cbn [fold_left map].
    - split; auto. apply FI_ext; auto. intro k. unfold put. destruct (k =? i); auto. now rewrite app_nil_r.
    - assert (NI : ~ In j (subs (ts_h s i))).
      { rewrite subs_app in ND. cbn in ND. apply NoDup_remove_2 in ND. intro X. apply ND. apply in_or_app. now left. }
      pose proof (add_FI s f i j H NG KN NI) as A.
      destruct (IH _ _ i A) as [B1 B2]; auto.
      { cbn [ts_h]. rewrite put_same, <- app_assoc. exact ND. }
      split; auto. eapply (FI_ext _ (put (ts_h s) i (OSub j :: map OSub l))) in B1; [exact B1|]. intro k. cbn [ts_h]. symmetry. apply put_put.
  Qed.

  Lemma emit_FI : forall s f i e, FI s f -> f_gone D O f = false ->
    exists g, emit D nn (f_subs D O f i) e = Some g /\ FI (TT (ts_o s) (ts_known s) (ts_lost s) (put (ts_h s) i [OEmit e])) (set_subj D O f i g).
  Proof.
    intros s f i e [H1 H2 H3 H4 H5 H6] NG. destruct (H6 i) as (g & fn & on & G1 & G2 & G3). rewrite (G3 NG).
    destruct (g_emit _ _ _ _ e G1) as (g' & fn' & E & G' & _). exists g'. split; auto.
    constructor; cbn [set_subj f_out f_subs f_known f_lost f_gone f_refs ts_o ts_known ts_lost ts_h]; auto.
    - intros k l. rewrite H4. destruct (Nat.eq_dec k i) as [->|NE]; [rewrite put_same, subs_app, in_app_iff; cbn; tauto | now rewrite put_other by auto].
    - intros k l. destruct (Nat.eq_dec k i) as [->|NE]; [rewrite put_same, subs_app, in_app_iff; cbn; intros [X|[]]; eauto | rewrite put_other by auto; apply H5].
    - intro k. unfold SI. cbn [set_subj f_subs f_gone ts_h]. destruct (Nat.eq_dec k i) as [->|NE].
      + rewrite Nat.eqb_refl, put_same. exists g', fn', on. auto.
      + rewrite put_other by auto. replace (k =? i) with false by (symmetry; now apply Nat.eqb_neq). exact (H6 k).
  Qed.
  (** The same step when everything is released: no observer notices. *)
  Lemma emit_gone : forall s f i e, FI s f -> f_gone D O f = true -> free f = true ->
    FI (TT (ts_o s) (ts_known s) (ts_lost s) (put (ts_h s) i [OEmit e])) f.
  Proof.
    intros s f i e [H1 H2 H3 H4 H5 H6] NG FR. destruct (free_dead f FR) as [F1 F2].
    constructor; cbn [ts_o ts_known ts_lost ts_h]; auto.
    - intros k l. rewrite H4. destruct (Nat.eq_dec k i) as [->|NE]; [rewrite put_same, subs_app, in_app_iff; cbn; tauto | now rewrite put_other by auto].
    - intros k l. destruct (Nat.eq_dec k i) as [->|NE]; [rewrite put_same, subs_app, in_app_iff; cbn; intros [X|[]]; eauto | rewrite put_other by auto; apply H5].
    - intro k. unfold SI. cbn [ts_h]. destruct (Nat.eq_dec k i) as [->|NE]; [|rewrite put_other by auto; exact (H6 k)].
      rewrite put_same. destruct (H6 i) as (g & fn & on & G1 & G2 & G3). destruct (g_emit _ _ _ _ e G1) as (g' & fn' & E & G' & SM).
      exists g', fn', on. split; auto. split; [|congruence]. intro j. rewrite SM; auto.
      destruct (in_dec Nat.eq_dec j (subs (ts_h s i))) as [I|NI]; [|left; auto]. right. rewrite <- G2. apply F2. now apply H4.
  Qed.

  Definition is_sub (m : mop) : bool := match m with MSub _ _ => true | _ => false end.
  Definition is_micro (m : mop) : bool := match m with MSub _ _ | MUnsub _ _ | MDrop => false | _ => true end.

  Lemma FG_step : forall s f m, FG s f -> (f_gone D O f = true -> is_sub m = false) -> (forall i, NoDup (subs (ts_h (tstep s m) i))) ->
    exists f', fexec D O now f m = Some f' /\ FG (tstep s m) f'.
  Proof.
    intros s f m [H GF] NL ND. pose proof H as [H1 H2 H3 H4 H5 H6]. destruct m as [i|i e|e|i|i j|i j|]; cbn [fexec tstep] in *.
    - destruct (f_gone D O f) eqn:NG.
      + exists f. split; auto. destruct (free_dead f (eq_sym GF)) as [F1 F2]. split; [|congruence].
        assert (OD : mdisp O (ts_o s) = true) by congruence. rewrite OD in *. rewrite (law_dead _ LO) by auto.
        constructor; cbn [ts_o ts_known ts_lost ts_h]; try congruence.
        * intros k l. rewrite H4. unfold put. destruct (k =? i); [rewrite app_nil_r|]; tauto.
        * intros k l I. apply orb_true_iff. right. apply (H5 k l). unfold put in I. destruct (k =? i); [rewrite app_nil_r in I|]; auto.
        * intro k. unfold SI, put in *. cbn [ts_h]. destruct (k =? i) eqn:E; [rewrite app_nil_r|]; apply H6.
      + rewrite <- H1 in *. set (f1 := FN D O _ _ _ _ _ _).
        set (s1 := TT (ts_o s) (fun k => (k =? i) || ts_known s k) (ts_lost s) (ts_h s)).
        assert (I1 : FI s1 f1).
        { constructor; cbn [f1 s1 f_out f_subs f_known f_lost f_gone f_refs ts_o ts_known ts_lost ts_h]; auto.
          - intros _ k. now rewrite (H2 eq_refl).
          - intros k l I. apply orb_true_iff. right. eauto.
          - intro k. pose proof (H6 k) as X. unfold SI in *. try rewrite NG in X. exact X. }
        assert (I2 : FI (TT (ts_o s) (fun k => (k =? i) || ts_known s k) (ts_lost s) (put (ts_h s) i (if mdisp O (f_out D O f) then [] else map OSub (now i))))
                        (if mdisp O (f_out D O f) then f1 else fold_left (add_sub D O i) (now i) f1) /\
                     f_gone D O (if mdisp O (f_out D O f) then f1 else fold_left (add_sub D O i) (now i) f1) = false).
        { destruct (mdisp O (f_out D O f)) eqn:OD.
          - split; [|reflexivity]. apply (FI_ext s1 _ f1 I1). intro k. unfold put. cbn [s1 ts_h]. destruct (k =? i); auto. now rewrite app_nil_r.
          - apply (add_all (now i) s1 f1 i I1); auto.
            + cbn [s1 ts_known]. now rewrite Nat.eqb_refl.
            + specialize (ND i). cbn [ts_h] in ND. rewrite put_same in ND. exact ND. }
        destruct I2 as [I2 NG2]. set (f2 := if mdisp O (f_out D O f) then f1 else _) in *.
        assert (O2 : f_out D O f2 = f_out D O f) by (rewrite (fi_out _ _ I2); auto).
        eexists. split; [reflexivity|]. apply settle_FG.
        * destruct I2 as [J1 J2 J3 J4 J5 J6]. constructor; cbn [set_out f_out f_subs f_known f_lost f_gone f_refs ts_o ts_known ts_lost ts_h]; auto. now rewrite O2.
        * cbn. congruence.
    - destruct (f_gone D O f) eqn:NG.
      + exists f. split; auto. split; [|congruence]. apply emit_gone; auto.
      + destruct (emit_FI s f i e H NG) as (g & E & I). rewrite E. eexists. split; [reflexivity|]. apply settle_FG; auto. cbn. congruence.
    - destruct (f_gone D O f) eqn:NG.
      + exists f. split; auto. destruct (free_dead f (eq_sym GF)) as [F1 F2]. split; [|congruence]. rewrite (law_dead _ LO) by congruence.
        apply (FI_ext s (ts_h s) f); auto.
      + eexists. split; [reflexivity|]. apply settle_FG; [|cbn; congruence].
        constructor; cbn [set_out f_out f_subs f_known f_lost f_gone f_refs ts_o ts_known ts_lost ts_h]; auto. now rewrite H1.
    - destruct (f_gone D O f) eqn:NG.
      + exists f. split; auto. split; [|congruence]. constructor; cbn [ts_o ts_known ts_lost ts_h]; auto; congruence.
      + eexists. split; [reflexivity|]. split; [|exact GF].
        constructor; cbn [f_out f_subs f_known f_lost f_gone f_refs ts_o ts_known ts_lost ts_h]; auto.
        * intros _ k. now rewrite (H3 eq_refl).
        * intro k. pose proof (H6 k) as X. unfold SI in *. rewrite NG in X. exact X.
    - destruct (f_gone D O f) eqn:NG; [specialize (NL eq_refl); discriminate|]. rewrite (H2 eq_refl), (H3 eq_refl).
      destruct (ts_known s i && negb (ts_lost s i)) eqn:K.
      + apply andb_prop in K as [K1 K2]. eexists. split; [reflexivity|]. apply settle_FG.
        * apply add_FI; auto. specialize (ND i). cbn [ts_h] in ND. rewrite put_same, subs_app in ND. cbn in ND. apply NoDup_remove_2 in ND. rewrite app_nil_r in ND. exact ND.
        * cbn. congruence.
      + exists f. split; auto. split; [|congruence]. apply (FI_ext s _ f H). intro k. unfold put. destruct (k =? i); auto. now rewrite app_nil_r.
    - eexists. split; [reflexivity|]. apply settle_FG.
      + constructor; cbn [set_subj f_out f_subs f_known f_lost f_gone f_refs ts_o ts_known ts_lost ts_h]; auto.
        * intros k l. rewrite H4. destruct (Nat.eq_dec k i) as [->|NE]; [rewrite put_same, subs_app, in_app_iff; cbn; tauto | now rewrite put_other by auto].
        * intros k l. destruct (Nat.eq_dec k i) as [->|NE]; [rewrite put_same, subs_app, in_app_iff; cbn; intros [X|[]]; eauto | rewrite put_other by auto; apply H5].
        * intro k. unfold SI. cbn [set_subj f_subs f_gone ts_h]. destruct (Nat.eq_dec k i) as [->|NE].
          -- rewrite Nat.eqb_refl, put_same. destruct (H6 i) as (g & fn & on & G1 & G2 & G3). exists (unsubscribe D g j), fn, on.
             split; [now apply g_unsub|]. split; [intro l; rewrite !unsub_sub, !G2; reflexivity|]. intro NG. now rewrite (G3 NG).
          -- rewrite put_other by auto. replace (k =? i) with false by (symmetry; now apply Nat.eqb_neq). exact (H6 k).
      + cbn [set_subj f_gone]. intro G. rewrite G in GF. destruct (free_dead f (eq_sym GF)) as [F1 F2]. apply dead_free; cbn [set_subj f_out f_subs f_refs]; auto.
        intros k l I. specialize (F2 k l I). destruct (Nat.eqb_spec k i) as [->|]; auto. rewrite unsub_sub. destruct (l =? j); auto. apply (law_kill _ LD).
    - eexists. split; [reflexivity|]. apply settle_FG.
      + constructor; cbn [set_out f_out f_subs f_known f_lost f_gone f_refs ts_o ts_known ts_lost ts_h]; auto. now rewrite H1.
      + cbn [set_out f_gone]. intro G. rewrite G in GF. destruct (free_dead f (eq_sym GF)) as [F1 F2]. apply dead_free; cbn [set_out f_out f_subs f_refs]; auto. apply (law_kill _ LO).
  Qed.

  Lemma FG_init : FG ts_init (fan_init D O d0 o0).
  Proof.
    apply settle_FG; [|discriminate]. constructor; cbn; auto; try (intros ? ? []); try tauto.
    intro i. exists (subj_init D d0), Open, (fun _ => false). split; [|auto]. constructor; auto; try discriminate.
    - apply init_inv.
  Qed.

  (** When the outer observer is terminated and every window has had its terminal event,
      everything is released. *)
  Lemma term_gone : forall s f, FG s f -> mdisp O (ts_o s) = true -> (forall i, ts_known s i = true -> has_term (ts_h s i) = true) -> f_gone D O f = true.
  Proof.
    intros s f [H GF] OD AL. rewrite GF. destruct H as [H1 H2 H3 H4 H5 H6]. apply dead_free; [congruence|].
    intros i j I. apply H4 in I. pose proof (AL i (H5 i j I)) as T. destruct (H6 i) as (g & fn & on & G1 & G2 & G3). rewrite G2.
    apply (gi_dead _ _ _ _ G1); auto. now apply (gi_term _ _ _ _ G1).
  Qed.

  (** Nothing the operator does reaches anybody after that. *)
  Lemma micro_gone : forall f m, f_gone D O f = true -> is_micro m = true -> fexec D O now f m = Some f.
  Proof. intros f m G M. destruct m; try discriminate; cbn [fexec]; now rewrite G. Qed.
  Lemma micros_gone : forall ms f, f_gone D O f = true -> forallb is_micro ms = true -> fexec_all D O now f ms = Some f.
  Proof.
    induction ms as [|m ms IH]; intros f G M; cbn [fexec_all]; auto. cbn in M. apply andb_prop in M as [M1 M2]. rewrite micro_gone; auto.
  Qed.

  (** ** Traces *)
  Fixpoint trun (s : tstate) (t : list mop) : tstate := match t with [] => s | m :: r => trun (tstep s m) r end.
  Lemma trun_app : forall a s b, trun s (a ++ b) = trun (trun s a) b.
  Proof. induction a; intros; cbn; auto. Qed.
  Lemma tstep_grows : forall s m i, exists l, ts_h (tstep s m) i = ts_h s i ++ l.
  Proof.
    intros s m i. destruct m as [k|k e|e|k|k j|k j|]; cbn [tstep ts_h]; unfold put; try (destruct (i =? k)); try (exists []; now rewrite app_nil_r); eauto.
  Qed.
  Lemma trun_grows : forall t s i, exists l, ts_h (trun s t) i = ts_h s i ++ l.
  Proof.
    induction t as [|m t IH]; intros s i; cbn [trun]; [exists []; now rewrite app_nil_r|].
    destruct (IH (tstep s m) i) as (l2 & E2). destruct (tstep_grows s m i) as (l1 & E1). exists (l1 ++ l2). now rewrite E2, E1, app_assoc.
  Qed.
  Lemma nodup_back : forall s t i, NoDup (subs (ts_h (trun s t) i)) -> NoDup (subs (ts_h s i)).
  Proof.
    intros s t i N. destruct (trun_grows t s i) as (l & E). rewrite E, subs_app in N. clear E.
    induction (subs (ts_h s i)) as [|x r IH]; [constructor|]. inversion N as [|? ? N1 N2]; subst. constructor; auto. intro I. apply N1, in_or_app. now left.
  Qed.
  Lemma micros_FG : forall ms s f, FG s f -> forallb is_micro ms = true -> (forall i, NoDup (subs (ts_h (trun s ms) i))) ->
    exists f', fexec_all D O now f ms = Some f' /\ FG (trun s ms) f'.
  Proof.
    induction ms as [|m ms IH]; intros s f H M N; cbn [fexec_all trun]; [eauto|]. cbn in M. apply andb_prop in M as [M1 M2].
    destruct (FG_step s f m H) as (f1 & E & H1).
    - intros _. destruct m; auto; discriminate.
    - intro i. apply (nodup_back _ ms i (N i)).
    - rewrite E. apply IH; auto.
  Qed.

  (** What an observer has got. *)
  Lemma FG_content : forall s f i j, FG s f -> NoDup (subs (ts_h s i)) -> s_sub D (f_subs D O f i) j = final D j (ts_h s i) (mrun D d0 (received j (ts_h s i))).
  Proof.
    intros s f i j [H _] N. destruct (fi_sub _ _ H i) as (g & fn & on & G1 & G2 & G3). rewrite G2.
    destruct (publish_run D LD (ts_h s i) d0 N) as (g' & R & E). pose proof (gi_run _ _ _ _ G1) as R1. rewrite <- (E j).
    assert (X : Some g = Some g') by (rewrite <- R; symmetry; exact R1). now injection X as ->.
  Qed.
  Lemma FG_gone : forall s f, FG s f ->
    (f_gone D O f = true <-> mdisp O (f_out D O f) = true /\ forall i j, In j (subs (ts_h s i)) -> mdisp D (s_sub D (f_subs D O f i) j) = true).
  Proof.
    intros s f [H GF]. rewrite GF. split.
    - intro F. destruct (free_dead f F) as [F1 F2]. split; auto. intros i j I. apply F2. now apply (fi_refs _ _ H).
    - intros [F1 F2]. apply dead_free; auto. intros i j I. apply F2. now apply (fi_refs _ _ H).
  Qed.

  (** ** Histories *)
  Section Hist.
    Context {X E : Type} (plan : X -> bool -> E -> X * list mop).
    Definition ends (ms : list mop) : bool := existsb (fun m => match m with MOut _ => true | _ => false end) ms.
    Fixpoint ttr (x : X) (over : bool) (s : tstate) (h : list (fop E)) : X * bool * tstate :=
      match h with
      | [] => (x, over, s)
      | FEv e :: r => if over then ttr x over s r
                      else let (x', ms) := plan x (mdisp O (ts_o s)) e in ttr x' (ends ms) (trun s ms) r
      | o :: r => ttr x over (trun s (ext o)) r
      end.
    Definition done (s : tstate) : Prop := mdisp O (ts_o s) = true /\ forall i, ts_known s i = true -> has_term (ts_h s i) = true.
    Variable K : X -> tstate -> Prop.
    Hypothesis Kplan : forall x s e, K x s -> let (x', ms) := plan x (mdisp O (ts_o s)) e in
      forallb is_micro ms = true /\ (if ends ms then done (trun s ms) else K x' (trun s ms)).
    Hypothesis Kext : forall x s o, K x s -> K x (trun s (@ext V E o)).
    Lemma done_ext : forall s o, done s -> done (trun s (@ext V E o)).
    Proof.
      intros s o [H1 H2]. split.
      - destruct o; cbn; auto. apply (law_kill _ LO).
      - intros i Kn. assert (Kn' : ts_known s i = true) by (destruct o; auto). destruct (trun_grows (ext o) s i) as (l & ->). rewrite has_term_app, H2; auto.
    Qed.
    Lemma ttr_grows : forall h x over s i, exists l, ts_h (snd (ttr x over s h)) i = ts_h s i ++ l.
    Proof.
      induction h as [|o h IH]; intros x over s i; [exists []; cbn; now rewrite app_nil_r|].
      assert (G : forall y ov ms, exists l, ts_h (snd (ttr y ov (trun s ms) h)) i = ts_h s i ++ l).
      { intros y ov ms. destruct (IH y ov (trun s ms) i) as (l2 & ->). destruct (trun_grows ms s i) as (l1 & ->). exists (l1 ++ l2). now rewrite app_assoc. }
      destruct o as [e|k j|k j|]; cbn [ttr]; try apply G.
      destruct over; [apply (G x true [])|]. destruct (plan x (mdisp O (ts_o s)) e) as [x' ms]. apply G.
    Qed.
    Definition timely (x : X) (f : fan) (h : list (fop E)) : Prop :=
      forall h1 i j h2 x' f', h = h1 ++ FSub i j :: h2 -> hrun D O now plan (x, f) h1 = Some (x', f') -> f_gone D O f' = false.
    Lemma timely_tail : forall o h x f x1 f1, timely x f (o :: h) -> hstep D O now plan (x, f) o = Some (x1, f1) -> timely x1 f1 h.
    Proof.
      intros o h x f x1 f1 T St h1 i j h2 x' f' Eq R. apply (T (o :: h1) i j h2 x' f'); [now rewrite Eq|]. cbn [hrun]. now rewrite St.
    Qed.
    Lemma prefix_nodup : forall (a b : list (sop V)), NoDup (subs (a ++ b)) -> NoDup (subs a).
    Proof.
      intros a b N. rewrite subs_app in N. induction (subs a) as [|x r IH]; [constructor|]. inversion N as [|? ? N1 N2]; subst.
      constructor; auto. intro I. apply N1, in_or_app. now left.
    Qed.
    Lemma hist_run : forall h x xt (over : bool) s f, FG s f -> (f_gone D O f = false -> x = xt) -> (if over then done s else K xt s) ->
      timely x f h -> (forall i, NoDup (subs (ts_h (snd (ttr xt over s h)) i))) ->
      exists x' f', hrun D O now plan (x, f) h = Some (x', f') /\ FG (snd (ttr xt over s h)) f' /\ (snd (fst (ttr xt over s h)) = true -> f_gone D O f' = true).
    Proof.
      induction h as [|o h IH]; intros x xt over s f H HX HK T N.
      - exists x, f. cbn. split; auto. split; auto. intros ->. destruct HK. eapply term_gone; eauto.
      - assert (NDm : forall y ov ms, (forall i, NoDup (subs (ts_h (snd (ttr y ov (trun s ms) h)) i))) -> forall i, NoDup (subs (ts_h (trun s ms) i))).
        { intros y ov ms N' i. specialize (N' i). destruct (ttr_grows h y ov (trun s ms) i) as (l & Eq). rewrite Eq in N'. eapply prefix_nodup; eauto. }
        assert (EXT : forall m, @ext V E o = [m] -> (forall x, hstep D O now plan (x, f) o = match fexec D O now f m with Some f' => Some (x, f') | None => None end) ->
                      ttr xt over s (o :: h) = ttr xt over (trun s [m]) h -> (f_gone D O f = true -> is_sub m = false) -> is_micro m = false ->
          exists x' f', hrun D O now plan (x, f) (o :: h) = Some (x', f') /\ FG (snd (ttr xt over s (o :: h))) f' /\ (snd (fst (ttr xt over s (o :: h))) = true -> f_gone D O f' = true)).
        { intros m Em Hs Ht NS _. rewrite Ht in *. destruct (FG_step s f m H NS) as (f1 & E1 & H1).
          { exact (NDm _ _ [m] N). }
          cbn [hrun]. rewrite Hs, E1. apply IH; auto.
          - intro G. apply HX. destruct (f_gone D O f) eqn:G0; auto. exfalso.
            assert (f_gone D O f1 = true); [|congruence]. destruct m; cbn [fexec] in E1; rewrite ?G0 in E1; try (injection E1 as <-; auto; fail).
            + specialize (NS eq_refl). discriminate.
            + injection E1 as <-. unfold settle. cbn [set_subj f_gone]. now rewrite G0.
            + injection E1 as <-. unfold settle. cbn [set_out f_gone]. now rewrite G0.
          - rewrite <- Em. destruct over; [now apply done_ext | now apply Kext].
          - eapply timely_tail; eauto. rewrite Hs, E1. reflexivity. }
        destruct o as [e|i j|i j|].
        + cbn [ttr hrun hstep snd fst] in *. destruct over.
          * rewrite (term_gone s f H (proj1 HK) (proj2 HK)). apply IH; auto. eapply timely_tail; eauto. cbn [hstep snd]. now rewrite (term_gone s f H (proj1 HK) (proj2 HK)).
          * pose proof (Kplan xt s e HK) as KP. destruct (plan xt (mdisp O (ts_o s)) e) as [x' ms] eqn:PL. destruct KP as [MI KP].
            destruct (micros_FG ms s f H MI (NDm _ _ ms N)) as (f1 & E1 & H1).
            destruct (f_gone D O f) eqn:G.
            -- rewrite (micros_gone ms f G MI) in E1. injection E1 as <-. apply (IH x x' (ends ms)); auto.
               ++ congruence.
               ++ eapply timely_tail; eauto. cbn [hstep snd]. now rewrite G.
            -- rewrite (fi_out _ _ (proj1 H)). rewrite (HX eq_refl), PL, E1. apply (IH x' x' (ends ms)); auto.
               eapply timely_tail; eauto. cbn [hstep snd fst]. now rewrite G, (fi_out _ _ (proj1 H)), (HX eq_refl), PL, E1.
        + apply (EXT (MSub i j)); auto; try (intro; cbn [hstep ext fexec_all fst snd]; destruct (fexec D O now f _); auto; fail).
          intro G. pose proof (T [] i j h x f eq_refl eq_refl). congruence.
        + apply (EXT (MUnsub i j)); auto.
        + apply (EXT MDrop); auto.
    Qed.
  End Hist.

  (** ** The outer observer *)
  Definition ostep1 (o : mst O) (x : option (ev nat)) : mst O := match x with Some e => mstep O o e | None => mkill O o end.
  Definition orun (o : mst O) (l : outer) : mst O := fold_left ostep1 l o.
  Lemma orun_dead : forall l o, mdisp O o = true -> orun o l = o.
  Proof.
    induction l as [|x l IH]; intros o Dd; cbn; auto. assert (Eq : ostep1 o x = o) by (destruct x; cbn; [apply (law_dead _ LO) | apply (law_kill_dead _ LO)]; auto).
    rewrite Eq. exact (IH o Dd).
  Qed.
  Fixpoint agrees (dead : nat -> bool) (o : mst O) (l : outer) : Prop :=
    match l with
    | [] => True
    | x :: r => match x with Some (Next i) => dead i = mdisp O o | _ => True end /\ agrees dead (ostep1 o x) r
    end.
  Definition wins (l : outer) : list nat := flat_map (fun x => match x with Some (Next i) => [i] | _ => [] end) l.
  Lemma agrees_ext : forall l o (d1 d2 : nat -> bool), (forall i, In i (wins l) -> d1 i = d2 i) -> agrees d1 o l -> agrees d2 o l.
  Proof.
    induction l as [|x l IH]; intros o d1 d2 Eq A; cbn [agrees] in *; auto. destruct A as [A1 A2]. split.
    - destruct x as [[i| |]|]; auto. rewrite <- Eq; auto. cbn. auto.
    - eapply IH; [|exact A2]. intros i I. apply Eq. destruct x as [[k| |]|]; cbn; auto.
  Qed.
  Lemma agrees_upto : forall l o, NoDup (wins l) -> agrees (fun i => mdisp O (orun o (upto i l))) o l.
  Proof.
    induction l as [|x l IH]; intros o N; cbn [agrees]; auto.
    assert (N' : NoDup (wins l)) by (destruct x as [[i| |]|]; auto; now inversion N).
    split; [destruct x as [[i| |]|]; auto; cbn [upto]; now rewrite Nat.eqb_refl|].
    eapply agrees_ext; [|apply (IH (ostep1 o x) N')]. intros i I. destruct x as [[k| |]|]; cbn [upto orun fold_left]; auto.
    destruct (Nat.eqb_spec k i) as [->|]; auto. inversion N. contradiction.
  Qed.
End FanP.
