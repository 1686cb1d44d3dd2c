(** window, group_by, window_toggle: each operator against its specification. *)
From Verif Require Import Base Machine MachineProofs SubjSpec SubjModel SubjProofs FanSpec FanModel FanProofs.
Require Import Lia.

(** ** window *)
Section WindowP.
  Context {V : Type} (D : machine V) (LD : lawful D) (O : machine nat) (LO : lawful O) (now : nat -> list nat) (d0 : mst D) (o0 : mst O) (n : nat).
  Hypothesis Hn : 1 <= n.
  Notation tstate := (tstate (V := V) O).
  Notation trun := (trun O now).
  Notation wplan := (@w_plan V n).
  Record WI (c : nat) (x : wst) (s : tstate) : Prop := {
    wi_c : c + n = w_num x * n + w_cnt x;
    wi_lo : 1 <= w_cnt x;
    wi_hi : w_cnt x <= n;
    wi_open : w_open x = (w_cnt x <? n);
    wi_zero : w_num x = 0 -> w_cnt x = n;
    wi_known : forall i, ts_known _ s i = (i <? w_num x);
    wi_lost : forall i, ts_lost _ s i = ((i <? w_num x) && ((S i <? w_num x) || (w_cnt x =? n)))
  }.
  Definition KW (x : wst) (s : tstate) : Prop :=
    (exists c, WI c x s) /\ forall i, ts_known _ s i = true -> has_term (ts_h _ s i) = true \/ (w_open x = true /\ S i = w_num x).

  Lemma div_at : forall q r, r < n -> (q * n + r) / n = q /\ (q * n + r) mod n = r.
  Proof.
    intros q r H. split; symmetry; [apply (Nat.div_unique _ n q r) | apply (Nat.mod_unique _ n q r)]; lia.
  Qed.
  Lemma div_next : forall q r, r < n -> (S (q * n + r) mod n =? 0) = (S r =? n).
  Proof.
    intros q r H. destruct (Nat.eqb_spec (S r) n) as [E|NE].
    - replace (S (q * n + r)) with (S q * n + 0) by lia. rewrite (proj2 (div_at (S q) 0 ltac:(lia))). reflexivity.
    - replace (S (q * n + r)) with (q * n + S r) by lia. rewrite (proj2 (div_at q (S r) ltac:(lia))). reflexivity.
  Qed.
  (** Before value number c: the window it goes to. *)
  Lemma wi_at : forall c x s, WI c x s ->
    if w_cnt x =? n then c / n = w_num x /\ c mod n = 0 /\ c = w_num x * n + 0
    else c / n = w_num x - 1 /\ c mod n = w_cnt x /\ 1 <= w_num x /\ c = (w_num x - 1) * n + w_cnt x.
  Proof.
    intros c x s [C LOW HI OP Z KN LS]. destruct (Nat.eqb_spec (w_cnt x) n) as [E|NE].
    - assert (c = w_num x * n + 0) by lia. destruct (div_at (w_num x) 0) as [D1 D2]; [lia|]. subst c. auto.
    - destruct (w_num x) as [|q] eqn:Q; [lia|]. assert (c = q * n + w_cnt x) by lia. replace (S q - 1) with q by lia.
      destruct (div_at q (w_cnt x)) as [D1 D2]; [lia|]. subst c. repeat split; auto. lia.
  Qed.

  Definition w_next (dead : nat -> bool) (c : nat) (v : V) (i : nat) : list (sop V) :=
    if c / n =? i then (if (c mod n =? 0) && negb (dead i) then map OSub (now i) else []) ++ [OEmit (Next v)] ++ (if S c mod n =? 0 then [OEmit Done] else []) else [].

  Lemma w_step_next : forall c x s v dead, WI c x s -> (c mod n = 0 -> dead (c / n) = mdisp O (ts_o _ s)) ->
    let s' := trun s (snd (wplan x (mdisp O (ts_o _ s)) (Next v))) in
    WI (S c) (fst (wplan x (mdisp O (ts_o _ s)) (Next v))) s' /\
    ts_o _ s' = orun O (ts_o _ s) (if c mod n =? 0 then [Some (Next (c / n))] else []) /\
    forall i, ts_h _ s' i = ts_h _ s i ++ w_next dead c v i.
  Proof.
    intros c x s v dead H DE. pose proof (wi_at c x s H) as AT. destruct H as [C LOW HI OP Z KN LS]. unfold w_next.
    destruct (w_cnt x =? n) eqn:CN.
    - destruct AT as (A1 & A2 & A3). rewrite A1, A2 in *. cbn [Nat.eqb]. specialize (DE eq_refl).
      assert (SC : (S c mod n =? 0) = (1 =? n)) by (rewrite A3; rewrite div_next by lia; reflexivity). rewrite SC. apply Nat.eqb_eq in CN.
      cbn zeta. unfold w_plan. cbn [w_cnt]. rewrite (proj2 (Nat.eqb_eq _ _) CN). cbn [w_num w_cnt w_open].
      replace (S (w_num x) - 1) with (w_num x) by lia.
      destruct (1 =? n) eqn:ON; cbn [fst snd app FanProofs.trun tstep ts_o ts_known ts_lost ts_h orun fold_left ostep1 andb].
      + apply Nat.eqb_eq in ON. split; [|split; auto].
        * constructor; cbn [w_num w_cnt w_open ts_known ts_lost]; try lia.
          -- symmetry. apply Nat.ltb_ge. lia.
          -- intro i. rewrite KN. destruct (Nat.eqb_spec i (w_num x)), (Nat.ltb_spec i (w_num x)), (Nat.ltb_spec i (S (w_num x))); auto; lia.
          -- intro i. rewrite LS, ON, Nat.eqb_refl, !orb_true_r, !andb_true_r.
             destruct (Nat.eqb_spec i (w_num x)), (Nat.ltb_spec i (w_num x)), (Nat.ltb_spec i (S (w_num x))); auto; lia.
        * intro i. unfold put. rewrite Nat.eqb_sym. destruct (Nat.eqb_spec (w_num x) i) as [<-|]; [|now rewrite app_nil_r].
          rewrite DE, <- !app_assoc. destruct (mdisp O (ts_o _ s)); reflexivity.
      + apply Nat.eqb_neq in ON. split; [|split; auto].
        * constructor; cbn [w_num w_cnt w_open ts_known ts_lost]; try lia.
          -- symmetry. apply Nat.ltb_lt. lia.
          -- intro i. rewrite KN. destruct (Nat.eqb_spec i (w_num x)), (Nat.ltb_spec i (w_num x)), (Nat.ltb_spec i (S (w_num x))); auto; lia.
          -- intro i. rewrite LS, !orb_true_r, !andb_true_r. replace (1 =? n) with false by (symmetry; apply Nat.eqb_neq; lia).
             rewrite orb_false_r. destruct (Nat.ltb_spec i (w_num x)), (Nat.ltb_spec i (S (w_num x))), (Nat.ltb_spec (S i) (S (w_num x))); auto; lia.
        * intro i. unfold put. rewrite Nat.eqb_sym. destruct (Nat.eqb_spec (w_num x) i) as [<-|]; [|now rewrite app_nil_r].
          rewrite DE, <- !app_assoc. destruct (mdisp O (ts_o _ s)); reflexivity.
    - destruct AT as (A1 & A2 & A3 & A4). rewrite A1, A2 in *. apply Nat.eqb_neq in CN.
      assert (SC : (S c mod n =? 0) = (S (w_cnt x) =? n)) by (rewrite A4; rewrite div_next by lia; reflexivity). rewrite SC.
      replace (w_cnt x =? 0) with false by (symmetry; apply Nat.eqb_neq; lia). cbn [andb].
      cbn zeta. unfold w_plan. rewrite (proj2 (Nat.eqb_neq _ _) CN).
      destruct (S (w_cnt x) =? n) eqn:ON; cbn [fst snd app FanProofs.trun tstep ts_o ts_known ts_lost ts_h orun fold_left ostep1].
      + apply Nat.eqb_eq in ON. split; [|split; auto].
        * constructor; cbn [w_num w_cnt w_open ts_known ts_lost]; try lia.
          -- symmetry. apply Nat.ltb_ge. lia.
          -- exact KN.
          -- intro i. rewrite LS, ON, Nat.eqb_refl, orb_true_r, andb_true_r. replace (w_cnt x =? n) with false by (symmetry; apply Nat.eqb_neq; lia).
             rewrite orb_false_r. destruct (Nat.eqb_spec i (w_num x - 1)), (Nat.ltb_spec i (w_num x)), (Nat.ltb_spec (S i) (w_num x)); auto; lia.
        * intro i. unfold put. rewrite Nat.eqb_sym. destruct (Nat.eqb_spec (w_num x - 1) i) as [<-|]; [|now rewrite app_nil_r].
          rewrite <- !app_assoc. reflexivity.
      + apply Nat.eqb_neq in ON. split; [|split; auto].
        * constructor; cbn [w_num w_cnt w_open ts_known ts_lost]; try lia.
          -- rewrite OP. destruct (Nat.ltb_spec (w_cnt x) n), (Nat.ltb_spec (S (w_cnt x)) n); auto; lia.
          -- exact KN.
          -- intro i. rewrite LS. replace (w_cnt x =? n) with false by (symmetry; apply Nat.eqb_neq; lia). replace (S (w_cnt x) =? n) with false by (symmetry; apply Nat.eqb_neq; lia). reflexivity.
        * intro i. unfold put. rewrite Nat.eqb_sym. destruct (Nat.eqb_spec (w_num x - 1) i) as [<-|]; [|now rewrite app_nil_r]. reflexivity.
  Qed.

  Lemma wi_active : forall c x s k, WI c x s -> ts_known _ s k && negb (ts_lost _ s k) = (k * n <? c) && (c <? k * n + n).
  Proof.
    intros c x s k [C LOW HI OP Z KN LS]. rewrite KN, LS.
    destruct (Nat.ltb_spec k (w_num x)) as [A|A]; cbn [andb].
    - destruct (Nat.ltb_spec (S k) (w_num x)) as [B|B]; cbn [orb negb].
      + assert (w_num x * n >= S (S k) * n) by (apply Nat.mul_le_mono_r; lia). replace (c <? k * n + n) with false by (symmetry; apply Nat.ltb_ge; lia). now rewrite andb_false_r.
      + assert (E : w_num x = S k) by lia. rewrite E in C. replace (k * n <? c) with true by (symmetry; apply Nat.ltb_lt; lia).
        destruct (Nat.eqb_spec (w_cnt x) n), (Nat.ltb_spec c (k * n + n)); auto; lia.
    - assert (w_num x * n <= k * n) by (apply Nat.mul_le_mono_r; lia). replace (k * n <? c) with false by (symmetry; apply Nat.ltb_ge; lia). reflexivity.
  Qed.
  Lemma wi_same : forall c x (s s' : tstate), WI c x s -> (forall i, ts_known _ s' i = ts_known _ s i) -> (forall i, ts_lost _ s' i = ts_lost _ s i) -> WI c x s'.
  Proof. intros c x s s' [C LOW HI OP Z KN LS] E1 E2. constructor; auto; intro i; rewrite ?E1, ?E2; auto. Qed.

  Definition w_last (c : nat) (e : ev V) (i : nat) : list (sop V) := if (c / n =? i) && negb (c mod n =? 0) then [OEmit e] else [].
  Lemma w_step_term : forall c x s e, WI c x s -> is_term e = true ->
    let s' := trun s (snd (wplan x (mdisp O (ts_o _ s)) e)) in
    WI c (fst (wplan x (mdisp O (ts_o _ s)) e)) s' /\ ts_o _ s' = mstep O (ts_o _ s) (up e) /\ mdisp O (ts_o _ s') = true /\
    (forall i, ts_h _ s' i = ts_h _ s i ++ w_last c e i) /\ ends (snd (wplan x (mdisp O (ts_o _ s)) e)) = true /\ forallb is_micro (snd (wplan x (mdisp O (ts_o _ s)) e)) = true.
  Proof.
    intros c x s e H T. pose proof (wi_at c x s H) as AT.
    assert (P : wplan x (mdisp O (ts_o _ s)) e = (x, (if w_open x then [MEmit (w_num x - 1) e] else []) ++ [MOut (up e)])) by (destruct e; [discriminate | reflexivity | reflexivity]).
    cbn zeta. rewrite P. cbn [fst snd]. rewrite (wi_open _ _ _ H). unfold w_last.
    assert (TD : mdisp O (mstep O (ts_o _ s) (up e)) = true) by (apply (law_term _ LO); destruct e; auto).
    destruct (w_cnt x =? n) eqn:CN.
    - destruct AT as (A1 & A2 & A3). apply Nat.eqb_eq in CN. replace (w_cnt x <? n) with false by (symmetry; apply Nat.ltb_ge; lia). rewrite A2. cbn [Nat.eqb negb].
      cbn [app FanProofs.trun tstep ts_o ts_h]. split; [apply (wi_same _ _ _ _ H); auto|]. split; [auto|]. split; [auto|]. split; [|auto]. intro i. now rewrite andb_false_r, app_nil_r.
    - destruct AT as (A1 & A2 & A3 & A4). apply Nat.eqb_neq in CN. pose proof (wi_hi _ _ _ H). pose proof (wi_lo _ _ _ H). replace (w_cnt x <? n) with true by (symmetry; apply Nat.ltb_lt; lia). rewrite A1, A2.
      replace (w_cnt x =? 0) with false by (symmetry; apply Nat.eqb_neq; lia). cbn [negb].
      cbn [app FanProofs.trun tstep ts_o ts_h]. split; [apply (wi_same _ _ _ _ H); auto|]. split; [auto|]. split; [auto|]. split; [|auto].
      intro i. unfold put. rewrite Nat.eqb_sym. rewrite andb_true_r. destruct (w_num x - 1 =? i); auto. now rewrite app_nil_r.
  Qed.
  Lemma w_micros : forall x b v, forallb (@is_micro V) (snd (wplan x b (Next v))) = true /\ ends (snd (wplan x b (Next v))) = false.
  Proof.
    intros x b v. unfold w_plan. cbn [snd]. destruct (w_cnt x =? n); destruct (S _ =? n); split; reflexivity.
  Qed.

  Lemma KW_plan : forall x s e, KW x s -> let (x', ms) := wplan x (mdisp O (ts_o _ s)) e in
    forallb is_micro ms = true /\ (if ends ms then done O (trun s ms) else KW x' (trun s ms)).
  Proof.
    intros x s e [(c & H) T]. rewrite (surjective_pairing (wplan x (mdisp O (ts_o _ s)) e)). destruct (is_term e) eqn:TE.
    - destruct (w_step_term c x s e H TE) as (W' & _ & Dd & Hh & -> & M). split; auto. split; auto. intros i Kn. rewrite Hh.
      assert (Kn0 : ts_known _ s i = true).
      { rewrite (wi_known _ _ _ W') in Kn. rewrite (wi_known _ _ _ H). destruct e; [discriminate| |]; exact Kn. }
      rewrite has_term_app. destruct (T i Kn0) as [Q|[Q1 Q2]]; [now rewrite Q|]. pose proof (wi_at c x s H) as AT. rewrite (wi_open _ _ _ H) in Q1. apply Nat.ltb_lt in Q1.
      replace (w_cnt x =? n) with false in AT by (symmetry; apply Nat.eqb_neq; lia). destruct AT as (A1 & A2 & A3 & A4). unfold w_last. rewrite A1, A2.
      replace (w_num x - 1) with i by lia. rewrite Nat.eqb_refl. pose proof (wi_lo _ _ _ H). replace (w_cnt x =? 0) with false by (symmetry; apply Nat.eqb_neq; lia). cbn. rewrite TE. apply orb_true_r.
    - destruct e as [v| |]; try discriminate. destruct (w_micros x (mdisp O (ts_o _ s)) v) as [M ->]. split; auto.
      destruct (w_step_next c x s v (fun _ => mdisp O (ts_o _ s)) H (fun _ => eq_refl)) as (W' & _ & Hh). split; [eauto|]. intros i Kn. rewrite Hh, has_term_app.
      rewrite (wi_known _ _ _ W') in Kn. pose proof (wi_at c x s H) as AT. pose proof (wi_lo _ _ _ H). pose proof (wi_hi _ _ _ H). unfold w_next.
      assert (HT : forall l, has_term (l ++ [OEmit (Next v); OEmit (@Done V)]) = true) by (intro; rewrite has_term_app; apply orb_true_r).
      destruct (w_cnt x =? n) eqn:CN.
      + destruct AT as (A1 & A2 & A3). apply Nat.eqb_eq in CN.
        assert (SC : (S c mod n =? 0) = (1 =? n)) by (rewrite A3; rewrite div_next by lia; reflexivity). rewrite A1, A2, SC. change (0 =? 0) with true. cbn [andb].
        unfold w_plan in Kn |- *. rewrite (proj2 (Nat.eqb_eq _ _) CN) in *. cbn [w_num w_cnt w_open fst snd] in *.
        destruct (Nat.eqb_spec (w_num x) i) as [E|NE].
        * destruct (1 =? n) eqn:ON; cbn [fst w_open w_num]; [left; apply orb_true_iff; right; apply HT | right; split; auto; lia].
        * left. assert (Kn0 : ts_known _ s i = true).
          { rewrite (wi_known _ _ _ H). destruct (1 =? n); cbn [fst w_num] in Kn; apply Nat.ltb_lt in Kn; apply Nat.ltb_lt; lia. }
          destruct (T i Kn0) as [Q|[Q1 Q2]]; [now rewrite Q|]. rewrite (wi_open _ _ _ H), CN, Nat.ltb_irrefl in Q1. discriminate.
      + destruct AT as (A1 & A2 & A3 & A4). apply Nat.eqb_neq in CN.
        assert (SC : (S c mod n =? 0) = (S (w_cnt x) =? n)) by (rewrite A4; rewrite div_next by lia; reflexivity). rewrite A1, A2, SC.
        unfold w_plan in Kn |- *. rewrite (proj2 (Nat.eqb_neq _ _) CN) in *. cbn [w_num w_cnt w_open fst snd] in *.
        assert (Kn0 : ts_known _ s i = true).
        { rewrite (wi_known _ _ _ H). destruct (S (w_cnt x) =? n); exact Kn. }
        destruct (T i Kn0) as [Q|[Q1 Q2]]; [left; now rewrite Q|]. replace (w_num x - 1) with i by lia. rewrite Nat.eqb_refl.
        destruct (S (w_cnt x) =? n) eqn:ON; cbn [fst w_open w_num]; [left; apply orb_true_iff; right; apply HT | right; auto].
  Qed.
  Lemma KW_ext : forall x s (o : fop (ev V)), KW x s -> KW x (trun s (ext o)).
  Proof.
    intros x s o [(c & H) T].
    assert (E1 : forall i, ts_known _ (trun s (ext o)) i = ts_known _ s i) by (destruct o; auto).
    assert (E2 : forall i, ts_lost _ (trun s (ext o)) i = ts_lost _ s i) by (destruct o; auto).
    split; [exists c; now apply (wi_same _ _ _ _ H)|]. intros i Kn. rewrite E1 in Kn. destruct (T i Kn) as [Q|Q]; auto. left.
    destruct (trun_grows O now (ext o) s i) as (l & ->). now rewrite has_term_app, Q.
  Qed.

  Lemma w_trace : forall h c (over : bool) x s dead, WI c x s -> (over = true -> mdisp O (ts_o _ s) = true) ->
    (if over then True else agrees O dead (ts_o _ s) (w_outer n c h)) ->
    let s' := snd (ttr O now wplan x over s h) in
    (forall i, ts_h _ s' i = ts_h _ s i ++ w_part now n dead i over c h) /\ ts_o _ s' = (if over then ts_o _ s else orun O (ts_o _ s) (w_outer n c h)) /\
    snd (fst (ttr O now wplan x over s h)) = over || existsb (fun o => match o with FEv e => is_term e | _ => false end) h.
  Proof.
    induction h as [|o h IH]; intros c over x s dead H OV A.
    - cbn. split; [intro; now rewrite app_nil_r|]. rewrite orb_false_r. destruct over; auto.
    - destruct o as [e|k j|k j|].
      + cbn [ttr w_part existsb]. destruct over.
        * apply (IH c true x s dead); auto.
        * cbn [orb]. rewrite (surjective_pairing (wplan x (mdisp O (ts_o _ s)) e)). destruct (is_term e) eqn:TE.
          -- destruct (w_step_term c x s e H TE) as (W' & Ho & Dd & Hh & -> & M).
             destruct (IH c true _ _ dead W' (fun _ => Dd) I) as (B1 & B2 & B3). split; [|split].
             ++ intro i. rewrite B1, Hh, <- app_assoc. unfold w_last. destruct e; [discriminate | |]; reflexivity.
             ++ rewrite B2, Ho. destruct e; [discriminate | |]; reflexivity.
             ++ rewrite B3. reflexivity.
          -- destruct e as [v| |]; try discriminate. destruct (w_micros x (mdisp O (ts_o _ s)) v) as [M ->]. cbn [w_outer] in A |- *.
             assert (A' : (c mod n = 0 -> dead (c / n) = mdisp O (ts_o _ s)) /\ agrees O dead (orun O (ts_o _ s) (if c mod n =? 0 then [Some (Next (c / n))] else [])) (w_outer n (S c) h)).
             { destruct (Nat.eqb_spec (c mod n) 0); [destruct A as [A1 A2]; split; auto | split; [contradiction | exact A]]. }
             destruct A' as [A1 A2]. destruct (w_step_next c x s v dead H A1) as (W' & Ho & Hh). rewrite <- Ho in A2.
             destruct (IH (S c) false _ _ dead W' ltac:(discriminate) A2) as (B1 & B2 & B3). split; [|split].
             ++ intro i. rewrite B1, Hh, <- app_assoc. reflexivity.
             ++ rewrite B2, Ho. unfold orun. now rewrite fold_left_app.
             ++ rewrite B3. reflexivity.
      + cbn [ttr w_part existsb orb]. set (s1 := trun s _).
        assert (W1 : WI c x s1) by (apply (wi_same _ _ _ _ H); auto).
        destruct (IH c over x s1 dead W1 OV A) as (B1 & B2 & B3). split; [|split; [exact B2 | exact B3]].
        intro i. rewrite B1, app_assoc. f_equal. cbn [s1 ext FanProofs.trun tstep ts_h]. unfold put. rewrite (wi_active c x s k H). rewrite Nat.eqb_sym.
        destruct (Nat.eqb_spec k i) as [->|]; cbn [andb]; auto. now rewrite app_nil_r.
      + cbn [ttr w_part existsb orb]. set (s1 := trun s _).
        assert (W1 : WI c x s1) by (apply (wi_same _ _ _ _ H); auto).
        destruct (IH c over x s1 dead W1 OV A) as (B1 & B2 & B3). split; [|split; [exact B2 | exact B3]].
        intro i. rewrite B1, app_assoc. f_equal. cbn [s1 ext FanProofs.trun tstep ts_h]. unfold put. rewrite Nat.eqb_sym.
        destruct (Nat.eqb_spec k i) as [->|]; auto. now rewrite app_nil_r.
      + cbn [ttr w_part existsb orb]. set (s1 := trun s _).
        assert (W1 : WI c x s1) by (apply (wi_same _ _ _ _ H); auto).
        assert (OV1 : over = true -> mdisp O (ts_o _ s1) = true) by (intros _; apply (law_kill _ LO)).
        assert (A1 : if over then True else agrees O dead (ts_o _ s1) (w_outer n c h)) by (destruct over; auto; exact (proj2 A)).
        destruct (IH c over x s1 dead W1 OV1 A1) as (B1 & B2 & B3). split; [exact B1 | split; [|exact B3]].
        rewrite B2. destruct over; auto. apply (law_kill_dead _ LO). auto.
  Qed.

  Lemma WI_init : WI 0 (w_init n) (ts_init O o0).
  Proof.
    constructor; cbn; auto; try lia. symmetry. apply Nat.ltb_irrefl.
  Qed.
  (** Each window is handed out once. *)
  Lemma w_wins : forall h c, NoDup (wins (w_outer n c h)) /\ forall i, In i (wins (@w_outer V n c h)) -> c <= i * n.
  Proof.
    induction h as [|o h IH]; intros c; [split; [constructor | intros i []]|].
    destruct o as [[v|y|]|k j|k j|]; cbn [w_outer]; try apply IH; try (split; [constructor | intros i []]).
    destruct (IH (S c)) as [I1 I2]. destruct (Nat.eqb_spec (c mod n) 0) as [E|NE]; cbn [app wins flat_map]; fold (wins (w_outer n (S c) h)).
    - assert (C : c = c / n * n) by (pose proof (Nat.div_mod c n ltac:(lia)); lia). split.
      + constructor; auto. intro J. apply I2 in J. lia.
      + intros i [<-|J]; [lia | apply I2 in J; lia].
    - split; auto. intros i J. apply I2 in J. lia.
  Qed.

  Definition w_dead (h : list (fop (ev V))) (i : nat) : bool := mdisp O (orun O o0 (upto i (w_outer n 0 h))).
  Theorem window_run : forall h, (forall i, NoDup (subs (w_part now n (w_dead h) i false 0 h))) ->
    timely D O now wplan (w_init n) (fan_init D O d0 o0) h ->
    exists x f, hrun D O now wplan (w_init n, fan_init D O d0 o0) h = Some (x, f) /\
      f_out D O f = orun O o0 (w_outer n 0 h) /\
      (forall i j, let p := w_part now n (w_dead h) i false 0 h in s_sub D (f_subs D O f i) j = final D j p (mrun D d0 (received j p))) /\
      (f_gone D O f = true <-> mdisp O (f_out D O f) = true /\ forall i j, In j (subs (w_part now n (w_dead h) i false 0 h)) -> mdisp D (s_sub D (f_subs D O f i) j) = true) /\
      (existsb (fun o => match o with FEv e => is_term e | _ => false end) h = true -> f_gone D O f = true).
  Proof.
    intros h N T. pose proof (agrees_upto O (w_outer n 0 h) o0 (proj1 (w_wins h 0))) as A.
    destruct (w_trace h 0 false (w_init n) (ts_init O o0) (w_dead h) WI_init ltac:(discriminate) A) as (B1 & B2 & B3).
    assert (B0 : forall i, ts_h _ (snd (ttr O now wplan (w_init n) false (ts_init O o0) h)) i = w_part now n (w_dead h) i false 0 h) by (intro i; rewrite B1; reflexivity).
    assert (K0 : KW (w_init n) (ts_init O o0)) by (split; [exists 0; exact WI_init | discriminate]).
    destruct (hist_run D LD O LO now d0 wplan KW KW_plan KW_ext h (w_init n) (w_init n) false (ts_init O o0) (fan_init D O d0 o0)) as (x & f & R & G & OVR); auto.
    { now apply FG_init. }
    { intro i. rewrite B0. apply N. }
    exists x, f. split; auto. split; [|split; [|split]].
    - rewrite (fi_out _ _ _ _ _ (proj1 G)). exact B2.
    - intros i j. cbn zeta. rewrite <- B0. apply (FG_content D LD O d0 _ _ i j G). rewrite B0. apply N.
    - destruct (FG_gone D O d0 _ _ G) as [F1 F2]. split; intro Q.
      + destruct (F1 Q) as [Q1 Q2]. split; auto. intros i j J. apply Q2. now rewrite B0.
      + destruct Q as [Q1 Q2]. apply F2. split; auto. intros i j J. apply Q2. now rewrite <- B0.
    - intro Q. apply OVR. rewrite B3. exact Q.
  Qed.
End WindowP.

(** ** What group_by and window_toggle have in common *)
Section Common.
  Context {V : Type} (D : machine V) (LD : lawful D) (O : machine nat) (LO : lawful O) (now : nat -> list nat) (d0 : mst D) (o0 : mst O).
  Notation tstate := (tstate (V := V) O).
  Notation trun := (trun O now).
  Lemma emits_run : forall ks (s : tstate) e, NoDup ks -> let s' := trun s (map (fun k => MEmit k e) ks) in
    ts_o _ s' = ts_o _ s /\ (forall i, ts_known _ s' i = ts_known _ s i) /\ (forall i, ts_lost _ s' i = ts_lost _ s i) /\
    forall i, ts_h _ s' i = ts_h _ s i ++ (if mem i ks then [OEmit e] else []).
  Proof.
    induction ks as [|k ks IH]; intros s e N; cbn [map FanProofs.trun].
    - cbn. repeat split; auto. intro; now rewrite app_nil_r.
    - inversion N as [|? ? N1 N2]; subst. destruct (IH (tstep O now s (MEmit k e)) e N2) as (A & B & C & F). cbn zeta. rewrite A. repeat split; auto.
      intro i. rewrite F. cbn [tstep ts_h]. unfold put. cbn [mem existsb]. destruct (Nat.eqb_spec i k) as [->|]; cbn [orb]; auto.
      fold (mem k ks). destruct (mem k ks) eqn:M; [|now rewrite app_nil_r]. apply existsb_exists in M as (y & Y1 & Y2). apply Nat.eqb_eq in Y2. subst. contradiction.
  Qed.
  Lemma emits_micro : forall ks e, forallb (@is_micro V) (map (fun k => MEmit k e) ks) = true.
  Proof. induction ks; intros; cbn; auto. Qed.
  Lemma emits_ends : forall ks (e : ev V), ends (map (fun k => MEmit k e) ks) = false.
  Proof. induction ks as [|k ks IH]; intros e; [reflexivity | exact (IH e)]. Qed.
  (** Every open window and the outer observer get a terminal event. *)
  Definition terms (ks : list nat) (e : ev V) : list (mop (V := V)) := map (fun k => MEmit k e) ks ++ [MOut (up e)].
  Lemma terms_run : forall ks (s : tstate) e, NoDup ks -> is_term e = true -> let s' := trun s (terms ks e) in
    ts_o _ s' = mstep O (ts_o _ s) (up e) /\ mdisp O (ts_o _ s') = true /\ (forall i, ts_known _ s' i = ts_known _ s i) /\ (forall i, ts_lost _ s' i = ts_lost _ s i) /\
    (forall i, ts_h _ s' i = ts_h _ s i ++ (if mem i ks then [OEmit e] else [])) /\ forallb is_micro (terms ks e) = true /\ ends (terms ks e) = true.
  Proof.
    intros ks s e N T. destruct (emits_run ks s e N) as (A & B & C & F). cbn zeta. unfold terms. rewrite trun_app. cbn [FanProofs.trun tstep ts_o ts_known ts_lost ts_h]. rewrite A.
    split; auto. split; [apply (law_term _ LO); destruct e; auto|]. split; auto. split; auto. split; auto. split.
    - rewrite forallb_app, emits_micro. reflexivity.
    - unfold ends. rewrite existsb_app. apply orb_true_r.
  Qed.

  Section Finish.
    Context {X E : Type} (plan : X -> bool -> E -> X * list (mop (V := V))) (x0 : X) (part : nat -> list (sop V)) (out : outer) (h : list (fop E)) (over : bool).
    Definition fan_result : Prop :=
      exists x f, hrun D O now plan (x0, fan_init D O d0 o0) h = Some (x, f) /\
        f_out D O f = orun O o0 out /\
        (forall i j, s_sub D (f_subs D O f i) j = final D j (part i) (mrun D d0 (received j (part i)))) /\
        (f_gone D O f = true <-> mdisp O (f_out D O f) = true /\ forall i j, In j (subs (part i)) -> mdisp D (s_sub D (f_subs D O f i) j) = true) /\
        (over = true -> f_gone D O f = true).
    Lemma finish : forall K : X -> tstate -> Prop,
      (forall x s e, K x s -> let (x', ms) := plan x (mdisp O (ts_o _ s)) e in
         forallb is_micro ms = true /\ (if ends ms then done O (trun s ms) else K x' (trun s ms))) ->
      (forall x s o, K x s -> K x (trun s (@ext V E o))) -> K x0 (ts_init O o0) ->
      (forall i, NoDup (subs (part i))) -> timely D O now plan x0 (fan_init D O d0 o0) h ->
      let t := ttr O now plan x0 false (ts_init O o0) h in
      (forall i, ts_h _ (snd t) i = part i) -> ts_o _ (snd t) = orun O o0 out -> (over = true -> snd (fst t) = true) -> fan_result.
    Proof.
      intros K KP KE K0 N T t B0 B2 B3.
      destruct (hist_run D LD O LO now d0 plan K KP KE h x0 x0 false (ts_init O o0) (fan_init D O d0 o0)) as (x & f & R & G & OVR); auto.
      { now apply FG_init. }
      { intro i. fold t. rewrite B0. apply N. }
      exists x, f. split; auto. fold t in G, OVR. split; [|split; [|split]].
      - rewrite (fi_out _ _ _ _ _ (proj1 G)). exact B2.
      - intros i j. rewrite <- B0. apply (FG_content D LD O d0 _ _ i j G). rewrite B0. apply N.
      - destruct (FG_gone D O d0 _ _ G) as [F1 F2]. split; intro Q.
        + destruct (F1 Q) as [Q1 Q2]. split; auto. intros i j J. apply Q2. now rewrite B0.
        + destruct Q as [Q1 Q2]. apply F2. split; auto. intros i j J. apply Q2. now rewrite <- B0.
      - intro Q. apply OVR, B3. exact Q.
    Qed.
  End Finish.
  Lemma mem_in : forall k l, mem k l = true <-> In k l.
  Proof.
    intros k l. unfold mem. rewrite existsb_exists. split; [intros (y & A & B); apply Nat.eqb_eq in B; now subst | intro A; exists k; now rewrite Nat.eqb_refl].
  Qed.
  Lemma mem_out : forall k l, mem k l = false <-> ~ In k l.
  Proof. intros k l. rewrite <- mem_in. destruct (mem k l); split; congruence. Qed.
End Common.

(** ** group_by *)
Section GroupP.
  Context {A V : Type} (key : A -> exn + nat) (elem : A -> exn + V).
  Context (D : machine V) (LD : lawful D) (O : machine nat) (LO : lawful O) (now : nat -> list nat) (d0 : mst D) (o0 : mst O).
  Notation tstate := (tstate (V := V) O).
  Notation trun := (trun O now).
  Notation gplan := (g_plan key elem).
  Record KG (keys : list nat) (s : tstate) : Prop := {
    kg_nodup : NoDup keys;
    kg_known : forall i, ts_known _ s i = mem i keys;
    kg_lost : forall i, ts_lost _ s i = false
  }.
  Lemma kg_same : forall keys (s s' : tstate), KG keys s -> (forall i, ts_known _ s' i = ts_known _ s i) -> (forall i, ts_lost _ s' i = ts_lost _ s i) -> KG keys s'.
  Proof. intros keys s s' [N KN LS] E1 E2. constructor; auto; intro i; rewrite ?E1, ?E2; auto. Qed.
  Lemma kg_new : forall keys s k, KG keys s -> mem k keys = false -> KG (keys ++ [k]) (trun s [MNew k]).
  Proof.
    intros keys s k [N KN LS] M. constructor.
    - apply mem_out in M. apply NoDup_rev in N. rewrite <- (rev_involutive (keys ++ [k])). apply NoDup_rev. rewrite rev_app_distr. cbn. constructor; auto. now rewrite <- in_rev.
    - intro i. cbn. rewrite KN. unfold mem. rewrite existsb_app. cbn. rewrite orb_false_r. apply orb_comm.
    - exact LS.
  Qed.
  Lemma KG_done : forall keys s e, KG keys s -> is_term e = true -> KG keys (trun s (terms keys e)) /\ done O (trun s (terms keys e)).
  Proof.
    intros keys s e H T. destruct (terms_run O LO now keys s e (kg_nodup _ _ H) T) as (B1 & B2 & B3 & B4 & B5 & B6 & B7).
    split; [now apply (kg_same _ s)|]. split; auto. intros i Kn. rewrite B3, (kg_known _ _ H) in Kn. rewrite B5, Kn, has_term_app. cbn. rewrite T. apply orb_true_r.
  Qed.
  Lemma KG_plan : forall x s e, KG x s -> let (x', ms) := gplan x (mdisp O (ts_o _ s)) e in
    forallb is_micro ms = true /\ (if ends ms then done O (trun s ms) else KG x' (trun s ms)).
  Proof.
    intros x s e H.
    assert (TM : forall keys s e, KG keys s -> is_term e = true -> forallb is_micro (g_term keys e) = true /\ (if ends (g_term keys e) then done O (trun s (g_term keys e)) else KG keys (trun s (g_term keys e)))).
    { intros keys s1 e1 H1 T1. destruct (terms_run O LO now keys s1 e1 (kg_nodup _ _ H1) T1) as (B1 & B2 & B3 & B4 & B5 & B6 & B7).
      change (g_term keys e1) with (terms keys e1). rewrite B7. split; auto. now apply KG_done. }
    destruct e as [a|y|]; cbn [g_plan]; try (apply TM; auto; fail).
    destruct (key a) as [y|k]; [apply TM; auto|]. fold (mem k x). destruct (mem k x) eqn:M; cbn [negb andb].
    - destruct (elem a) as [y|v]; cbn [app]; [apply TM; auto|]. split; auto. cbn [ends existsb orb]. now apply (kg_same _ s).
    - destruct (mdisp O (ts_o _ s)); [split; auto|]. destruct (elem a) as [y|v].
      + destruct (TM (x ++ [k]) (trun s [MNew k]) (Err y) (kg_new _ _ _ H M) eq_refl) as [T1 T2]. split; [exact T1|].
        change (ends ([MNew k] ++ g_term (x ++ [k]) (Err y))) with (ends (g_term (x ++ [k]) (@Err V y))). rewrite trun_app. exact T2.
      + split; auto. cbn [ends existsb orb app]. change (trun s [MNew k; MEmit k (Next v)]) with (trun (trun s [MNew k]) [MEmit k (Next v)]).
        apply (kg_same _ (trun s [MNew k])); auto. now apply kg_new.
  Qed.
  Lemma KG_ext : forall x s (o : fop (ev A)), KG x s -> KG x (trun s (ext o)).
  Proof. intros x s o H. apply (kg_same _ s); auto; destruct o; auto. Qed.

  (** [dead] is right about the keys that are still to come. *)
  Definition PG (dead : nat -> bool) (o : mst O) (seen : list nat) (l : outer) : Prop :=
    agrees O dead o l /\ forall k, mem k seen = false -> ~ In k (wins l) -> dead k = mdisp O (orun O o l).
  Lemma PG_dead : forall dead l o seen, PG dead o seen l -> mdisp O o = true -> forall k, mem k seen = false -> dead k = true.
  Proof.
    intros dead l o seen [P1 P2] Dd k M. destruct (in_dec Nat.eq_dec k (wins l)) as [I|NI]; [|now rewrite P2, orun_dead].
    clear P2 M. revert o P1 Dd. induction l as [|x l IH]; intros o P1 Dd; [destruct I|]. destruct P1 as [P1 P2].
    assert (E : ostep1 O o x = o) by (destruct x; cbn; [apply (law_dead _ LO) | apply (law_kill_dead _ LO)]; auto).
    rewrite E in P2. destruct x as [[i| |]|]; cbn in I; auto; try (apply (IH I o); auto; fail).
    destruct I as [->|I]; [congruence | apply (IH I o); auto].
  Qed.
  Definition PG' dead o seen l : Prop := if mdisp O o then forall k, mem k seen = false -> dead k = true else PG dead o seen l.
  Lemma PG_any : forall dead l o seen, PG dead o seen l -> PG' dead o seen l.
  Proof. intros dead l o seen H. unfold PG'. destruct (mdisp O o) eqn:E; auto. eapply PG_dead; eauto. Qed.

  Lemma g_trace : forall h seen (over : bool) x s dead, KG x s -> (forall k, mem k x = mem k seen && negb (dead k)) ->
    (forall k, mem k seen = true -> dead k = true -> mdisp O (ts_o _ s) = true) -> (over = true -> mdisp O (ts_o _ s) = true) ->
    (if over then True else PG' dead (ts_o _ s) seen (g_outer key elem seen h)) ->
    let t := ttr O now gplan x over s h in
    (forall i, ts_h _ (snd t) i = ts_h _ s i ++ g_part now key elem dead i over seen h) /\
    ts_o _ (snd t) = (if over then ts_o _ s else orun O (ts_o _ s) (g_outer key elem seen h)) /\
    (over || existsb (fun o => match o with FEv e => is_term e | _ => false end) h = true -> snd (fst t) = true).
  Proof.
    induction h as [|o h IH]; intros seen over x s dead H MX MD OV P.
    - cbn. split; [intro; now rewrite app_nil_r|]. rewrite orb_false_r. destruct over; auto.
    - assert (TM : forall x1 seen1 s1 e, KG x1 s1 -> is_term e = true -> (forall k, mem k x1 = mem k seen1 && negb (dead k)) -> (forall k, mem k seen1 = true -> dead k = true -> mdisp O (ts_o _ s1) = true) ->
          let t := ttr O now gplan x1 (ends (g_term x1 e)) (trun s1 (g_term x1 e)) h in
          (forall i, ts_h _ (snd t) i = ts_h _ s1 i ++ (if mem i seen1 && negb (dead i) then [OEmit e] else []) ++ g_part now key elem dead i true seen1 h) /\
          ts_o _ (snd t) = mstep O (ts_o _ s1) (up e) /\ snd (fst t) = true).
      { intros x1 seen1 s1 e H1 T1 MX1 MD1. change (g_term x1 e) with (terms x1 e). destruct (terms_run O LO now x1 s1 e (kg_nodup _ _ H1) T1) as (B1 & B2 & B3 & B4 & B5 & B6 & ->).
        destruct (IH seen1 true x1 (trun s1 (terms x1 e)) dead (proj1 (KG_done _ _ _ H1 T1)) MX1 (fun _ _ _ => B2) (fun _ => B2) I) as (C1 & C2 & C3). cbn zeta. split; [|split].
        - intro i. rewrite C1, B5, MX1, <- app_assoc. reflexivity.
        - rewrite C2. exact B1.
        - apply C3. reflexivity. }
      destruct o as [e|k j|k j|].
      + cbn [ttr g_part existsb]. destruct over; [apply (IH seen true x s dead); auto|]. cbn [orb].
        destruct e as [a|y|]; cbn [g_plan g_outer is_term orb] in *.
        2: destruct (TM x seen s (Err y) H eq_refl MX MD) as (T1 & T2 & T3); split; [exact T1 | split; [exact T2 | intros _; exact T3]].
        2: destruct (TM x seen s Done H eq_refl MX MD) as (T1 & T2 & T3); split; [exact T1 | split; [exact T2 | intros _; exact T3]].
        destruct (key a) as [y|k].
        { destruct (TM x seen s (Err y) H eq_refl MX MD) as (T1 & T2 & T3). split; [exact T1 | split; [exact T2 | intros _; exact T3]]. }
        fold (mem k x). rewrite (MX k). destruct (mem k seen) eqn:MS; cbn [negb andb orb].
        * (* a known key *)
          assert (MXk : forall i, mem i x = mem i (k :: seen) && negb (dead i)).
          { intro i. rewrite MX. cbn [mem existsb]. fold (mem i seen). destruct (Nat.eqb_spec i k) as [->|]; auto. cbn [orb]. now rewrite MS. }
          assert (MDk : forall i, mem i (k :: seen) = true -> dead i = true -> mdisp O (ts_o _ s) = true).
          { intros i Mi. cbn [mem existsb] in Mi. destruct (Nat.eqb_spec i k) as [E|]; [subst i|]; apply MD; auto. }
          assert (SEE : forall i, mem i (k :: seen) = false -> mem i seen = false).
          { intros i Mi. cbn [mem existsb] in Mi. now apply orb_false_iff in Mi. }
          destruct (dead k) eqn:DK; cbn [negb andb].
          -- (* nobody listened *)
             pose proof (MD k MS DK) as Dd. rewrite Dd. cbn [ends existsb FanProofs.trun]. 
             destruct (IH (k :: seen) false x s dead H MXk MDk ltac:(discriminate)) as (C1 & C2 & C3).
             { unfold PG' in *. rewrite Dd in *. intros i Mi. apply P. now apply SEE. }
             split; [|split; [|exact C3]].
             ++ intro i. rewrite C1. rewrite !andb_false_r. reflexivity.
             ++ rewrite C2, !orun_dead; auto.
          -- destruct (elem a) as [y|v]; cbn [app].
             ++ destruct (TM x (k :: seen) s (Err y) H eq_refl MXk MDk) as (T1 & T2 & T3). split; [|split; [exact T2 | intros _; exact T3]].
                intro i. rewrite T1. rewrite andb_false_r. reflexivity.
             ++ cbn [ends existsb orb]. 
                destruct (IH (k :: seen) false x (trun s [MEmit k (Next v)]) dead) as (C1 & C2 & C3); auto.
                { apply (kg_same _ s); auto. }
                { cbn [FanProofs.trun tstep ts_o]. unfold PG' in *. destruct (mdisp O (ts_o _ s)); [intros i Mi; apply P; now apply SEE|]. destruct P as [P1 P2]. split; auto. }
                split; [|split; [exact C2 | exact C3]].
                intro i. rewrite C1. cbn [FanProofs.trun tstep ts_h]. unfold put. rewrite andb_false_r. cbn [app]. rewrite Nat.eqb_sym. destruct (Nat.eqb_spec k i) as [->|]; auto. now rewrite <- app_assoc.
        * (* a new key *)
          destruct (mdisp O (ts_o _ s)) eqn:Dd; cbn [andb negb].
          -- unfold PG' in P. rewrite Dd in P. pose proof (P k MS) as DK. cbn [ends existsb FanProofs.trun].
             destruct (IH (k :: seen) false x s dead H) as (C1 & C2 & C3).
             { intro i. rewrite MX. cbn [mem existsb]. fold (mem i seen). destruct (Nat.eqb_spec i k) as [->|]; auto. now rewrite DK, !andb_false_r. }
             { auto. }
             { discriminate. }
             { unfold PG'. rewrite Dd. intros i Mi. apply P. cbn [mem existsb] in Mi. now apply orb_false_iff in Mi. }
             split; [|split; [|exact C3]].
             ++ intro i. rewrite C1, DK. rewrite !andb_false_r. reflexivity.
             ++ rewrite C2, !orun_dead; auto.
          -- assert (DK : dead k = false).
             { unfold PG' in P. rewrite Dd in P. destruct P as [[P1 _] _]. congruence. }
             assert (Mk : mem k x = false) by (rewrite MX, MS; reflexivity).
             pose proof (kg_new _ _ _ H Mk) as H1. set (s1 := trun s [MNew k]) in *.
             assert (MX1 : forall i, mem i (x ++ [k]) = mem i (k :: seen) && negb (dead i)).
             { intro i. unfold mem at 1. rewrite existsb_app. fold (mem i x). rewrite MX. cbn [mem existsb]. fold (mem i seen). rewrite orb_false_r. destruct (Nat.eqb_spec i k) as [->|]; [now rewrite MS, DK|]. cbn [orb]. now rewrite orb_false_r. }
             assert (MD1 : forall i, mem i (k :: seen) = true -> dead i = true -> mdisp O (ts_o _ s1) = true).
             { intros i Mi DI. cbn [mem existsb] in Mi. destruct (Nat.eqb_spec i k) as [E|]; [congruence|]. pose proof (MD i Mi DI). congruence. }
             assert (Hs1 : forall i, ts_h _ s1 i = ts_h _ s i ++ (if (k =? i) && true && negb (dead k) then map OSub (now i) else [])).
             { intro i. cbn [s1 FanProofs.trun tstep ts_h]. unfold put. rewrite Dd, DK, Nat.eqb_sym. destruct (Nat.eqb_spec k i) as [->|]; cbn; auto. now rewrite app_nil_r. }
             rewrite DK in *. destruct (elem a) as [y|v].
             ++ change (ends ([MNew k] ++ g_term (x ++ [k]) (Err y))) with (ends (g_term (x ++ [k]) (@Err V y))). rewrite trun_app. fold s1.
                destruct (TM (x ++ [k]) (k :: seen) s1 (Err y) H1 eq_refl MX1 MD1) as (T1 & T2 & T3). split; [|split; [exact T2 | intros _; exact T3]].
                intro i. rewrite T1, Hs1, <- app_assoc. reflexivity.
             ++ cbn [app ends existsb orb]. change (trun s [MNew k; MEmit k (Next v)]) with (trun s1 [MEmit k (Next v)]).
                destruct (IH (k :: seen) false (x ++ [k]) (trun s1 [MEmit k (Next v)]) dead) as (C1 & C2 & C3); auto.
                { apply (kg_same _ s1); auto. }
                { discriminate. }
                { apply PG_any. unfold PG' in P. rewrite Dd in P. destruct P as [[P1 P1'] P2]. split; [exact P1'|]. intros i Mi NI. rewrite P2; auto.
                  - cbn [mem existsb] in Mi. now apply orb_false_iff in Mi.
                  - cbn [app wins flat_map]. intros [->|J]; [|contradiction]. cbn [mem existsb] in Mi. now rewrite Nat.eqb_refl in Mi. }
                split; [|split; [exact C2 | exact C3]].
                intro i. rewrite C1. cbn [FanProofs.trun tstep ts_h]. unfold put. rewrite !Hs1, Nat.eqb_sym. destruct (Nat.eqb_spec k i) as [->|]; rewrite <- ?app_assoc; reflexivity.
      + cbn [ttr g_part existsb]. set (s1 := trun s _).
        destruct (IH seen over x s1 dead) as (B1 & B2 & B3); auto; [now apply (kg_same _ s)|]. split; [|split; [exact B2 | exact B3]].
        intro i. rewrite B1, app_assoc. f_equal. cbn [s1 ext FanProofs.trun tstep ts_h]. unfold put. rewrite (kg_known _ _ H), (kg_lost _ _ H), MX, andb_true_r, Nat.eqb_sym.
        destruct (Nat.eqb_spec k i) as [->|]; cbn [andb]; auto. now rewrite app_nil_r.
      + cbn [ttr g_part existsb]. set (s1 := trun s _).
        destruct (IH seen over x s1 dead) as (B1 & B2 & B3); auto; [now apply (kg_same _ s)|]. split; [|split; [exact B2 | exact B3]].
        intro i. rewrite B1, app_assoc. f_equal. cbn [s1 ext FanProofs.trun tstep ts_h]. unfold put. rewrite Nat.eqb_sym.
        destruct (Nat.eqb_spec k i) as [->|]; auto. now rewrite app_nil_r.
      + cbn [ttr g_part existsb]. set (s1 := trun s _).
        assert (KD : mdisp O (ts_o _ s1) = true) by apply (law_kill _ LO).
        destruct (IH seen over x s1 dead) as (B1 & B2 & B3); auto; [now apply (kg_same _ s)| |].
        { destruct over; auto. unfold PG' in *. rewrite KD. destruct (mdisp O (ts_o _ s)) eqn:Dd; auto. destruct P as [[_ P1] P2]. eapply PG_dead; [split; [exact P1 | exact P2] | exact KD]. }
        split; [exact B1 | split; [|exact B3]]. rewrite B2. destruct over; auto. apply (law_kill_dead _ LO). auto.
  Qed.

  Lemma g_wins : forall h seen, NoDup (wins (g_outer key elem seen h)) /\ forall i, In i (wins (g_outer key elem seen h)) -> mem i seen = false.
  Proof.
    induction h as [|o h IH]; intros seen; [split; [constructor | intros i []]|].
    destruct o as [[a|y|]|k j|k j|]; cbn [g_outer]; try apply IH; try (split; [constructor | intros i []]).
    destruct (key a) as [y|k]; [split; [constructor | intros i []]|]. destruct (IH (k :: seen)) as [I1 I2].
    assert (I3 : forall i, In i (wins (g_outer key elem (k :: seen) h)) -> i <> k /\ mem i seen = false).
    { intros i I. apply I2 in I. cbn [mem existsb] in I. apply orb_false_iff in I as [J1 J2]. apply Nat.eqb_neq in J1. auto. }
    destruct (mem k seen) eqn:MS; cbn [app].
    - destruct (elem a); [split; [constructor | intros i []]|]. split; auto. intros i I. now apply I3.
    - destruct (elem a); cbn [wins flat_map app].
      + split; [constructor; [intros [] | constructor] | intros i [<-|[]]; auto].
      + split; [constructor; auto; intro J; apply I3 in J; tauto | intros i [<-|J]; auto; now apply I3].
  Qed.
  Definition g_dead (h : list (fop (ev A))) (i : nat) : bool := mdisp O (orun O o0 (upto i (g_outer key elem [] h))).
  Lemma upto_out : forall l i, ~ In i (wins l) -> upto i l = l.
  Proof.
    induction l as [|x l IH]; intros i NI; auto. destruct x as [[k| |]|]; cbn [upto]; try (rewrite IH; auto; fail).
    cbn in NI. destruct (Nat.eqb_spec k i) as [->|]; [tauto|]. rewrite IH; auto.
  Qed.
  Theorem group_by_run : forall h, (forall i, NoDup (subs (g_part now key elem (g_dead h) i false [] h))) ->
    timely D O now gplan [] (fan_init D O d0 o0) h ->
    fan_result D O now d0 o0 gplan [] (fun i => g_part now key elem (g_dead h) i false [] h) (g_outer key elem [] h) h
      (existsb (fun o => match o with FEv e => is_term e | _ => false end) h).
  Proof.
    intros h N T.
    assert (K0 : KG [] (ts_init O o0)) by (constructor; auto; constructor).
    assert (P : PG (g_dead h) o0 [] (g_outer key elem [] h)).
    { split; [exact (agrees_upto O _ o0 (proj1 (g_wins h [])))|]. intros k _ NI. unfold g_dead. now rewrite upto_out. }
    destruct (g_trace h [] false [] (ts_init O o0) (g_dead h) K0) as (B1 & B2 & B3); auto; try discriminate.
    { exact (PG_any _ _ _ _ P). }
    apply (finish D LD O LO now d0 o0 gplan [] _ _ h _ KG KG_plan KG_ext); auto.
  Qed.
End GroupP.

(** ** window_toggle *)
Section ToggleP.
  Context {V : Type} (D : machine V) (LD : lawful D) (O : machine nat) (LO : lawful O) (now : nat -> list nat) (d0 : mst D) (o0 : mst O).
  Notation tstate := (tstate (V := V) O).
  Notation trun := (trun O now).
  Notation tplan := (@t_plan V).
  Definition t_on (num : nat) (shut : list nat) (i : nat) : bool := (i <? num) && negb (mem i shut).
  Record TI (num : nat) (shut : list nat) (x : tst) (s : tstate) : Prop := {
    ti_num : t_num x = num;
    ti_nodup : NoDup (t_list x);
    ti_list : forall i, mem i (t_list x) = t_on num shut i;
    ti_known : forall i, ts_known _ s i = (i <? num);
    ti_lost : forall i, ts_lost _ s i = (i <? num) && mem i shut;
    ti_shut : forall i, mem i shut = true -> i < num
  }.
  Definition KT (x : tst) (s : tstate) : Prop :=
    (exists num shut, TI num shut x s) /\ forall i, ts_known _ s i = true -> has_term (ts_h _ s i) = true \/ mem i (t_list x) = true.
  Lemma ti_same : forall num shut x (s s' : tstate), TI num shut x s -> (forall i, ts_known _ s' i = ts_known _ s i) -> (forall i, ts_lost _ s' i = ts_lost _ s i) -> TI num shut x s'.
  Proof. intros num shut x s s' [H1 H2 H3 H4 H5 H6] E1 E2. constructor; auto; intro i; rewrite ?E1, ?E2; auto. Qed.
  Lemma ti_open : forall num shut x s, TI num shut x s -> TI (S num) shut (TS (S (t_num x)) (t_list x ++ [t_num x])) (trun s [MNew (t_num x)]).
  Proof.
    intros num shut x s [H1 H2 H3 H4 H5 H6].
    assert (NS : mem num shut = false) by (destruct (mem num shut) eqn:E; auto; apply H6 in E; lia).
    assert (NL : mem num (t_list x) = false) by (rewrite H3; unfold t_on; now rewrite Nat.ltb_irrefl).
    constructor; cbn [t_num t_list FanProofs.trun tstep ts_known ts_lost].
    - lia.
    - rewrite H1. apply mem_out in NL. apply NoDup_rev in H2. rewrite <- (rev_involutive (t_list x ++ [num])). apply NoDup_rev. rewrite rev_app_distr. cbn. constructor; auto. now rewrite <- in_rev.
    - intro i. unfold mem. rewrite existsb_app. fold (mem i (t_list x)). rewrite H3, H1. cbn. rewrite orb_false_r. unfold t_on.
      destruct (Nat.eqb_spec i num) as [->|NE]; [rewrite NS, orb_true_r; symmetry; rewrite andb_true_r; apply Nat.ltb_lt; lia|].
      rewrite orb_false_r. destruct (Nat.ltb_spec i num), (Nat.ltb_spec i (S num)); auto; lia.
    - intro i. rewrite H4, H1. destruct (Nat.eqb_spec i num), (Nat.ltb_spec i num), (Nat.ltb_spec i (S num)); auto; lia.
    - intro i. rewrite H5. destruct (mem i shut) eqn:E; [|now rewrite !andb_false_r]. apply H6 in E. destruct (Nat.ltb_spec i num), (Nat.ltb_spec i (S num)); auto; lia.
    - intros i E. apply H6 in E. lia.
  Qed.
  Lemma ti_close : forall num shut x s k, TI num shut x s -> t_on num shut k = true ->
    TI num (k :: shut) (TS (t_num x) (filter (fun i => negb (i =? k)) (t_list x))) (trun s [MEmit k Done; MLost k]).
  Proof.
    intros num shut x s k [H1 H2 H3 H4 H5 H6] ON. unfold t_on in ON. apply andb_prop in ON as [O1 O2]. constructor; cbn [t_num t_list FanProofs.trun tstep ts_known ts_lost]; auto.
    - now apply NoDup_filter.
    - intro i. assert (E : mem i (filter (fun i => negb (i =? k)) (t_list x)) = mem i (t_list x) && negb (i =? k)).
      { apply Bool.eq_iff_eq_true. rewrite andb_true_iff, !mem_in, filter_In. tauto. }
      rewrite E, H3. unfold t_on. cbn [mem existsb]. fold (mem i shut). rewrite negb_orb, <- andb_assoc. f_equal. apply andb_comm.
    - intro i. rewrite H5. cbn [mem existsb]. fold (mem i shut). destruct (Nat.eqb_spec i k) as [->|]; cbn [orb]; auto. now rewrite O1.
    - intros i E. cbn [mem existsb] in E. fold (mem i shut) in E. apply orb_true_iff in E as [E|E]; auto. apply Nat.eqb_eq in E. subst. now apply Nat.ltb_lt.
  Qed.
  Lemma t_terms : forall num shut x s e, TI num shut x s -> is_term e = true ->
    TI num shut x (trun s (t_term x e)) /\ ts_o _ (trun s (t_term x e)) = mstep O (ts_o _ s) (up e) /\ mdisp O (ts_o _ (trun s (t_term x e))) = true /\
    (forall i, ts_h _ (trun s (t_term x e)) i = ts_h _ s i ++ (if t_on num shut i then [OEmit e] else [])) /\ forallb is_micro (t_term x e) = true /\ ends (t_term x e) = true.
  Proof.
    intros num shut x s e H T. destruct (terms_run O LO now (t_list x) s e (ti_nodup _ _ _ _ H) T) as (B1 & B2 & B3 & B4 & B5 & B6 & B7).
    change (t_term x e) with (terms (t_list x) e). split; [now apply (ti_same _ _ _ s)|]. split; auto. split; auto. split; auto. intro i. rewrite B5, (ti_list _ _ _ _ H). reflexivity.
  Qed.
  Lemma KT_terms : forall x s e, KT x s -> is_term e = true -> forallb is_micro (t_term x e) = true /\ (if ends (t_term x e) then done O (trun s (t_term x e)) else KT x (trun s (t_term x e))).
  Proof.
    intros x s e [(num & shut & H) T] TE. destruct (t_terms num shut x s e H TE) as (B1 & B2 & B3 & B4 & B5 & B6). rewrite B6. split; auto. split; auto.
    intros i Kn. rewrite (ti_known _ _ _ _ B1), <- (ti_known _ _ _ _ H) in Kn. rewrite B4, has_term_app. destruct (T i Kn) as [Q|Q]; [now rewrite Q|].
    rewrite (ti_list _ _ _ _ H) in Q. rewrite Q. cbn. rewrite TE. apply orb_true_r.
  Qed.
  Lemma KT_plan : forall x s e, KT x s -> let (x', ms) := tplan x (mdisp O (ts_o _ s)) e in
    forallb is_micro ms = true /\ (if ends ms then done O (trun s ms) else KT x' (trun s ms)).
  Proof.
    intros x s e K. destruct e as [[v|y|]|[u|y|]|k c]; cbn [t_plan]; try (apply KT_terms; auto; fail).
    - rewrite emits_micro, emits_ends. split; auto. destruct K as [(num & shut & H) T].
      destruct (emits_run O now (t_list x) s (Next v) (ti_nodup _ _ _ _ H)) as (B1 & B2 & B3 & B4).
      split; [exists num, shut; now apply (ti_same _ _ _ s)|]. intros i Kn. rewrite B2 in Kn. rewrite B4, has_term_app. destruct (T i Kn) as [Q|Q]; [left; now rewrite Q | now right].
    - split; auto. cbn [ends existsb orb]. destruct K as [(num & shut & H) T]. split; [exists (S num), shut; now apply ti_open|].
      intros i Kn. cbn [FanProofs.trun tstep ts_known] in Kn. cbn [t_list]. unfold mem. rewrite existsb_app. fold (mem i (t_list x)). cbn [existsb]. rewrite orb_false_r.
      destruct (Nat.eqb_spec i (t_num x)) as [E|]; [right; apply orb_true_r|]. destruct (T i Kn) as [Q|Q]; [|right; now rewrite Q].
      left. destruct (trun_grows O now [MNew (t_num x)] s i) as (l & ->). now rewrite has_term_app, Q.
    - split; auto.
    - fold (mem k (t_list x)). destruct (mem k (t_list x)) eqn:M; [|split; auto].
      assert (CL : forallb (@is_micro V) [MEmit k Done; MLost k] = true /\ KT (TS (t_num x) (filter (fun i => negb (i =? k)) (t_list x))) (trun s [MEmit k Done; MLost k])).
      { split; auto. destruct K as [(num & shut & H) T]. assert (ON : t_on num shut k = true) by (rewrite <- (ti_list _ _ _ _ H); auto).
        split; [exists num, (k :: shut); now apply ti_close|]. intros i Kn. cbn [FanProofs.trun tstep ts_known] in Kn. cbn [FanProofs.trun tstep ts_h t_list]. unfold put.
        destruct (Nat.eqb_spec i k) as [E|NE]; [left; rewrite has_term_app; apply orb_true_r|]. destruct (T i Kn) as [Q|Q]; auto. right.
        apply mem_in. apply mem_in in Q. apply filter_In. split; auto. apply negb_true_iff. now apply Nat.eqb_neq. }
      destruct c as [u|y|]; [exact CL | now apply KT_terms | exact CL].
  Qed.
  Lemma KT_ext : forall x s (o : fop (tev V)), KT x s -> KT x (trun s (ext o)).
  Proof.
    intros x s o [(num & shut & H) T].
    assert (E1 : forall i, ts_known _ (trun s (ext o)) i = ts_known _ s i) by (destruct o; auto).
    assert (E2 : forall i, ts_lost _ (trun s (ext o)) i = ts_lost _ s i) by (destruct o; auto).
    split; [exists num, shut; now apply (ti_same _ _ _ _ _ H)|]. intros i Kn. rewrite E1 in Kn. destruct (T i Kn) as [Q|Q]; auto. left.
    destruct (trun_grows O now (ext o) s i) as (l & ->). now rewrite has_term_app, Q.
  Qed.
  Definition t_fatal (o : fop (tev V)) : bool := match o with FEv (TSrc e) => is_term e | FEv (TOpen (Err _)) => true | _ => false end.
  Lemma t_trace : forall h num shut (over : bool) x s dead, TI num shut x s -> (over = true -> mdisp O (ts_o _ s) = true) ->
    (if over then True else agrees O dead (ts_o _ s) (t_outer num shut h)) ->
    let t := ttr O now tplan x over s h in
    (forall i, ts_h _ (snd t) i = ts_h _ s i ++ t_part now dead i over num shut h) /\
    ts_o _ (snd t) = (if over then ts_o _ s else orun O (ts_o _ s) (t_outer num shut h)) /\
    (over || existsb t_fatal h = true -> snd (fst t) = true).
  Proof.
    induction h as [|o h IH]; intros num shut over x s dead H OV A.
    - cbn. split; [intro; now rewrite app_nil_r|]. rewrite orb_false_r. destruct over; auto.
    - assert (TM : forall e, is_term e = true ->
          let t := ttr O now tplan x (ends (t_term x e)) (trun s (t_term x e)) h in
          (forall i, ts_h _ (snd t) i = ts_h _ s i ++ (if t_on num shut i then [OEmit e] else []) ++ t_part now dead i true num shut h) /\
          ts_o _ (snd t) = mstep O (ts_o _ s) (up e) /\ snd (fst t) = true).
      { intros e TE. destruct (t_terms num shut x s e H TE) as (B1 & B2 & B3 & B4 & B5 & ->).
        destruct (IH num shut true x (trun s (t_term x e)) dead B1 (fun _ => B3) I) as (C1 & C2 & C3). cbn zeta. split; [|split].
        - intro i. rewrite C1, B4, <- app_assoc. reflexivity.
        - rewrite C2. exact B2.
        - apply C3. reflexivity. }
      destruct o as [e|k j|k j|].
      + cbn [ttr t_part existsb]. destruct over; [apply (IH num shut true x s dead); auto|]. cbn [orb].
        destruct e as [[v|y|]|[u|y|]|k c]; cbn [t_plan t_outer t_fatal is_term orb] in *.
        * rewrite emits_ends. destruct (emits_run O now (t_list x) s (Next v) (ti_nodup _ _ _ _ H)) as (B1 & B2 & B3 & B4).
          destruct (IH num shut false x (trun s (map (fun k => MEmit k (Next v)) (t_list x))) dead) as (C1 & C2 & C3); [now apply (ti_same _ _ _ s) | discriminate | now rewrite B1|].
          split; [|split; [rewrite C2, B1; reflexivity | exact C3]]. intro i. rewrite C1, B4, (ti_list _ _ _ _ H), <- app_assoc. reflexivity.
        * destruct (TM (Err y) eq_refl) as (T1 & T2 & T3). split; [exact T1 | split; [exact T2 | intros _; exact T3]].
        * destruct (TM Done eq_refl) as (T1 & T2 & T3). split; [exact T1 | split; [exact T2 | intros _; exact T3]].
        * cbn [ends existsb orb]. pose proof (ti_open _ _ _ _ H) as H1. destruct A as [A1 A2]. rewrite (ti_num _ _ _ _ H) in *. set (s1 := trun s [MNew num]) in *.
          destruct (IH (S num) shut false (TS (S num) (t_list x ++ [num])) s1 dead H1 ltac:(discriminate) A2) as (C1 & C2 & C3).
          split; [|split; [exact C2 | exact C3]]. intro i. rewrite C1, app_assoc. f_equal. cbn [s1 FanProofs.trun tstep ts_h]. unfold put. rewrite Nat.eqb_sym.
          destruct (Nat.eqb_spec num i) as [E|]; cbn [andb]; [|now rewrite app_nil_r]. rewrite <- E, A1. now destruct (mdisp O (ts_o _ s)).
        * destruct (TM (Err y) eq_refl) as (T1 & T2 & T3). split; [exact T1 | split; [exact T2 | intros _; exact T3]].
        * apply (IH num shut false x s dead); auto.
        * fold (mem k (t_list x)). rewrite (ti_list _ _ _ _ H). unfold t_on at 1. fold (t_on num shut k).
          assert (CL : (match c with Err _ => false | _ => true end) = true -> agrees O dead (ts_o _ s) (t_outer num (if k <? num then k :: shut else shut) h) ->
            let t := let (x', ms) := if t_on num shut k then (TS (t_num x) (filter (fun i => negb (i =? k)) (t_list x)), [MEmit k Done; MLost k]) else (x, []) in
                     ttr O now tplan x' (ends ms) (trun s ms) h in
            (forall i, ts_h _ (snd t) i = ts_h _ s i ++ (if (k =? i) && t_on num shut i then [OEmit Done] else []) ++ t_part now dead i false num (if k <? num then k :: shut else shut) h) /\
            ts_o _ (snd t) = orun O (ts_o _ s) (t_outer num (if k <? num then k :: shut else shut) h) /\
            (existsb t_fatal h = true -> snd (fst t) = true)).
          { intros _ A1. destruct (t_on num shut k) eqn:ON.
            - pose proof (ti_close _ _ _ _ _ H ON) as H1. unfold t_on in ON. apply andb_prop in ON as [O1 O2]. rewrite O1 in *. cbn [ends existsb orb].
              destruct (IH num (k :: shut) false _ _ dead H1 ltac:(discriminate) A1) as (C1 & C2 & C3). split; [|split; [exact C2 | exact C3]].
              intro i. rewrite C1, app_assoc. f_equal. cbn [FanProofs.trun tstep ts_h]. unfold put. rewrite Nat.eqb_sym. destruct (Nat.eqb_spec k i) as [<-|]; cbn [andb]; [|now rewrite app_nil_r].
              unfold t_on. now rewrite O1, O2.
            - assert (H1 : TI num (if k <? num then k :: shut else shut) x s).
              { unfold t_on in ON. destruct (k <? num) eqn:KN; auto. cbn [andb] in ON. apply negb_false_iff in ON. destruct H as [H1 H2 H3 H4 H5 H6].
                assert (E : forall i, mem i (k :: shut) = mem i shut) by (intro i; cbn [mem existsb]; fold (mem i shut); destruct (Nat.eqb_spec i k) as [->|]; auto).
                constructor; auto; intro i; rewrite ?E; auto. rewrite H3. unfold t_on. now rewrite E. }
              cbn [ends existsb orb FanProofs.trun]. destruct (IH num _ false x s dead H1 ltac:(discriminate) A1) as (C1 & C2 & C3). split; [|split; [exact C2 | exact C3]].
              intro i. rewrite C1. destruct (Nat.eqb_spec k i) as [<-|]; cbn [andb]; auto. now rewrite ON. }
          destruct c as [u|y|].
          -- apply CL; auto.
          -- fold (t_on num shut k) in A |- *. destruct (t_on num shut k) eqn:ON.
             ++ destruct (TM (Err y) eq_refl) as (T1 & T2 & T3). split; [exact T1 | split; [exact T2 | intros _; exact T3]].
             ++ apply (IH num shut false x s dead); auto.
          -- apply CL; auto.
      + cbn [ttr t_part existsb]. set (s1 := trun s _).
        destruct (IH num shut over x s1 dead) as (B1 & B2 & B3); auto; [now apply (ti_same _ _ _ s)|]. split; [|split; [exact B2 | exact B3]].
        intro i. rewrite B1, app_assoc. f_equal. cbn [s1 ext FanProofs.trun tstep ts_h]. unfold put. rewrite (ti_known _ _ _ _ H), (ti_lost _ _ _ _ H), Nat.eqb_sym.
        destruct (Nat.eqb_spec k i) as [->|]; cbn [andb]; [|now rewrite app_nil_r]. destruct (i <? num), (mem i shut); reflexivity.
      + cbn [ttr t_part existsb]. set (s1 := trun s _).
        destruct (IH num shut over x s1 dead) as (B1 & B2 & B3); auto; [now apply (ti_same _ _ _ s)|]. split; [|split; [exact B2 | exact B3]].
        intro i. rewrite B1, app_assoc. f_equal. cbn [s1 ext FanProofs.trun tstep ts_h]. unfold put. rewrite Nat.eqb_sym.
        destruct (Nat.eqb_spec k i) as [->|]; auto. now rewrite app_nil_r.
      + cbn [ttr t_part existsb]. set (s1 := trun s _).
        assert (KD : mdisp O (ts_o _ s1) = true) by apply (law_kill _ LO).
        destruct (IH num shut over x s1 dead) as (B1 & B2 & B3); auto; [now apply (ti_same _ _ _ s) | destruct over; auto; exact (proj2 A) |].
        split; [exact B1 | split; [|exact B3]]. rewrite B2. destruct over; auto. apply (law_kill_dead _ LO). auto.
  Qed.
  Lemma t_wins : forall h num shut, NoDup (wins (t_outer num shut h)) /\ forall i, In i (wins (@t_outer V num shut h)) -> num <= i.
  Proof.
    induction h as [|o h IH]; intros num shut; [split; [constructor | intros i []]|].
    destruct o as [[[v|y|]|[u|y|]|k [u|y|]]|k j|k j|]; cbn [t_outer]; try apply IH; try solve [split; [constructor | intros i []]].
    - destruct (IH (S num) shut) as [I1 I2]. cbn [wins flat_map app]. split.
      + constructor; auto. intro J. apply I2 in J. lia.
      + intros i [<-|J]; [lia | apply I2 in J; lia].
    - destruct ((k <? num) && negb (mem k shut)); [split; [constructor | intros i []] | apply IH].
  Qed.
  Definition t_dead (h : list (fop (tev V))) (i : nat) : bool := mdisp O (orun O o0 (upto i (t_outer 0 [] h))).
  Theorem toggle_run : forall h, (forall i, NoDup (subs (t_part now (t_dead h) i false 0 [] h))) ->
    timely D O now tplan t_init (fan_init D O d0 o0) h ->
    fan_result D O now d0 o0 tplan t_init (fun i => t_part now (t_dead h) i false 0 [] h) (t_outer 0 [] h) h (existsb t_fatal h).
  Proof.
    intros h N T.
    assert (K0 : TI 0 [] t_init (ts_init O o0)) by (constructor; cbn; auto; try constructor; discriminate).
    pose proof (agrees_upto O _ o0 (proj1 (t_wins h 0 []))) as P.
    destruct (t_trace h 0 [] false t_init (ts_init O o0) (t_dead h) K0 ltac:(discriminate) P) as (B1 & B2 & B3).
    apply (finish D LD O LO now d0 o0 tplan t_init _ _ h _ KT KT_plan KT_ext); auto.
    split; [eauto | discriminate].
  Qed.
End ToggleP.
