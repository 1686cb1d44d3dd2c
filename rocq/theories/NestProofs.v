From Coq Require Import Permutation.
From Verif Require Import Base ObserverSpec NestSpec NestModel.

Section P.
  Context {V : Type}.
  Implicit Types (st : nst V) (tr : list (nact V)).

  Lemma got_app : forall i (a b : list (nat * ev V)), got i (a ++ b) = got i a ++ got i b.
  Proof. intros. unfold got. apply flat_map_app. Qed.
  Lemma got_one : forall i j (e : ev V), got i [(j, e)] = if j =? i then [e] else [].
  Proof. intros. unfold got. cbn. destruct (j =? i); reflexivity. Qed.
  Lemma npushed_app : forall tr tr', npushed (tr ++ tr') = npushed tr ++ npushed tr'.
  Proof. intros. unfold npushed. apply flat_map_app. Qed.
  Lemma nruns_app : forall tr tr' st, nruns st (tr ++ tr') = match nruns st tr with Some s => nruns s tr' | None => None end.
  Proof. induction tr as [|a tr IH]; intros tr' st; cbn; auto. destruct (nstep st a); auto. Qed.
  Lemma until_end_app : forall (a b : list (ev V)), existsb is_term a = true -> until_end (a ++ b) = until_end a.
  Proof. induction a as [|[v|x|] a IH]; intros b H; cbn in *; auto; [discriminate|]. now rewrite IH. Qed.
  Lemma until_end_vals : forall (a b : list (ev V)), existsb is_term a = false -> until_end (a ++ b) = a ++ until_end b.
  Proof. induction a as [|[v|x|] a IH]; intros b H; cbn in *; auto; try discriminate. now rewrite IH. Qed.

  (** walk: either nobody is left, or exactly one observer is called. *)
  Lemma walk_cases : forall v rest st,
    (walk v rest st = st /\ forall i, In i rest -> n_dead st i = true) \/
    exists a i r, rest = a ++ i :: r /\ (forall j, In j a -> n_dead st j = true) /\ n_dead st i = false /\
      walk v rest st = NSt (n_subs st) (n_dead st) (n_over st) ((v, r) :: n_walks st) (n_log st ++ [(i, Next v)]).
  Proof.
    induction rest as [|i r IH]; intro st; cbn.
    - left. split; [auto|intros i []].
    - destruct (n_dead st i) eqn:D.
      + destruct (IH st) as [(E & H)|(a & k & r' & E & H & K & W)].
        * left. split; auto. intros j [<-|J]; auto.
        * right. exists (i :: a), k, r'. rewrite E. repeat split; auto.
          -- intros j [<-|J]; auto.
          -- rewrite <- E. exact W.
      + right. exists [], i, r. repeat split; auto; try (intros j []).
  Qed.
  Lemma finish_facts : forall e rest st, NoDup rest ->
    n_subs (finish e rest st) = n_subs st /\ n_over (finish e rest st) = n_over st /\ n_walks (finish e rest st) = n_walks st /\
    (forall i, In i rest -> n_dead (finish e rest st) i = true) /\
    (forall i, n_dead st i = true -> n_dead (finish e rest st) i = true) /\
    forall i, got i (n_log (finish e rest st)) = got i (n_log st) ++ (if existsb (Nat.eqb i) rest && negb (n_dead st i) then [e] else []).
  Proof.
    induction rest as [|k r IH]; intros st N; cbn [finish].
    - repeat split; auto; try (intros i []). intro i. cbn. now rewrite app_nil_r.
    - inversion N as [|? ? NI N']; subst. destruct (n_dead st k) eqn:D.
      + destruct (IH st N') as (A1 & A2 & A3 & A4 & A5 & A6). repeat split; auto.
        * intros i [<-|J]; auto.
        * intro i. rewrite A6. cbn. destruct (Nat.eqb_spec i k) as [E|E]; cbn; auto. subst i. rewrite D.
          destruct (existsb (Nat.eqb k) r); reflexivity.
      + destruct (IH (NSt (n_subs st) (fun j => (j =? k) || n_dead st j) (n_over st) (n_walks st) (n_log st ++ [(k, e)])) N') as (A1 & A2 & A3 & A4 & A5 & A6).
        cbn [n_subs n_dead n_over n_walks n_log] in *. repeat split; auto.
        * intros i [<-|J]; auto. apply A5. now rewrite Nat.eqb_refl.
        * intros i H. apply A5. rewrite H. apply orb_true_r.
        * intro i. rewrite A6, got_app, got_one. rewrite (Nat.eqb_sym k i). destruct (Nat.eqb_spec i k) as [E|E]; cbn.
          -- subst i. rewrite D. assert (X : existsb (Nat.eqb k) r = false).
             { apply Bool.not_true_is_false. intro H. apply existsb_exists in H. destruct H as (x & H1 & H2). apply Nat.eqb_eq in H2. congruence. }
             rewrite X, Nat.eqb_refl. cbn. now rewrite app_nil_r.
          -- apply Nat.eqb_neq in E. rewrite E. now rewrite app_nil_r.
  Qed.

  (** Values still to come to observer i from the running loops, innermost first. *)
  Definition owed (i : nat) (w : list (V * list nat)) : list (ev V) :=
    flat_map (fun x => if existsb (Nat.eqb i) (snd x) then [Next (fst x)] else []) w.
  Lemma owed_cons : forall i v r w, owed i ((v, r) :: w) = (if existsb (Nat.eqb i) r then [Next v] else []) ++ owed i w.
  Proof. reflexivity. Qed.
  Definition over_in (l : list (ev V)) : bool := existsb is_term l.

  Record ninv (subs : list nat) tr st : Prop := NInv {
    i_subs : n_subs st = subs;
    i_over : n_over st = over_in (npushed tr);
    i_walks : Forall (fun x => exists a, subs = a ++ snd x /\ a <> []) (n_walks st);
    i_dead : forall i, In i subs -> n_dead st i = false -> n_over st = false /\ ~ In (NStop i) tr;
    i_live : forall i, In i subs -> n_dead st i = false -> Permutation (npushed tr) (got i (n_log st) ++ owed i (n_walks st));
    i_out : forall i, ~ In i subs -> got i (n_log st) = [];
    i_gram : forall i, grammatical (got i (n_log st)) /\ (n_dead st i = false -> exists vs, got i (n_log st) = map Next vs);
    i_stop : forall i, In (NStop i) tr -> n_dead st i = true;
    i_alive : forall i, In i subs -> n_dead st i = true -> n_over st = true \/ In (NStop i) tr
  }.

  Lemma existsb_in : forall i l, existsb (Nat.eqb i) l = true <-> In i l.
  Proof.
    intros i l. rewrite existsb_exists. split.
    - intros (x & H & E). apply Nat.eqb_eq in E. now subst.
    - intro H. exists i. split; auto. apply Nat.eqb_refl.
  Qed.
  Lemma existsb_nin : forall i l, existsb (Nat.eqb i) l = false <-> ~ In i l.
  Proof. intros. rewrite <- existsb_in. now destruct (existsb (Nat.eqb i) l). Qed.
  Lemma gram_snoc : forall (l : list (ev V)) e, (exists vs, l = map Next vs) -> grammatical (l ++ [e]).
  Proof.
    intros l e (vs & ->). destruct e as [v|x|].
    - exists (vs ++ [v]), []. rewrite map_app, app_nil_r. auto.
    - exists vs, [Err x]. split; auto. right; right; eauto.
    - exists vs, [Done]. split; auto.
  Qed.
  Lemma over_app : forall a b : list (ev V), over_in (a ++ b) = over_in a || over_in b.
  Proof. intros. apply existsb_app. Qed.

  (** A loop over [rest] (a suffix of the subscribers) goes on. *)
  Lemma walk_inv : forall subs tr v rest st, NoDup subs ->
    (exists a, subs = a ++ rest) -> n_subs st = subs -> n_over st = over_in (npushed tr) ->
    Forall (fun x => exists a, subs = a ++ snd x /\ a <> []) (n_walks st) ->
    (forall i, In i subs -> n_dead st i = false -> n_over st = false /\ ~ In (NStop i) tr) ->
    (forall i, In i subs -> n_dead st i = false ->
       Permutation (npushed tr) (got i (n_log st) ++ (if existsb (Nat.eqb i) rest then [Next v] else []) ++ owed i (n_walks st))) ->
    (forall i, ~ In i subs -> got i (n_log st) = []) ->
    (forall i, grammatical (got i (n_log st)) /\ (n_dead st i = false -> exists vs, got i (n_log st) = map Next vs)) ->
    (forall i, In (NStop i) tr -> n_dead st i = true) ->
    (forall i, In i subs -> n_dead st i = true -> n_over st = true \/ In (NStop i) tr) ->
    ninv subs tr (walk v rest st).
  Proof.
    intros subs tr v rest st N (pre & SE) I1 I2 I3 I4 I5 I6 I7 I8 I9.
    destruct (walk_cases v rest st) as [(E & H)|(a & k & r & E & H & K & W)].
    - rewrite E. constructor; auto. intros i I D. specialize (I5 i I D).
      destruct (existsb (Nat.eqb i) rest) eqn:X; auto. apply existsb_in in X. rewrite (H i X) in D. discriminate.
    - rewrite W. rewrite E in SE.
      assert (KI : In k subs) by (rewrite SE; apply in_or_app; right; apply in_or_app; right; now left).
      assert (KN : ~ In k r).
      { rewrite SE, app_assoc in N. apply NoDup_remove_2 in N. intro. apply N. apply in_or_app. now right. }
      constructor; cbn [n_subs n_dead n_over n_walks n_log]; auto.
      + constructor; auto. exists (pre ++ a ++ [k]). cbn. split; [rewrite SE; now rewrite <- !app_assoc|]. destruct pre; [destruct a|]; discriminate.
      + intros i I D. specialize (I5 i I D). rewrite owed_cons, got_app, got_one. rewrite (Nat.eqb_sym k i).
        destruct (Nat.eqb_spec i k) as [EQ|NE].
        * subst i. apply existsb_nin in KN. rewrite KN. cbn [app]. rewrite <- app_assoc.
          assert (KR : existsb (Nat.eqb k) rest = true) by (apply existsb_in; rewrite E; apply in_or_app; right; now left).
          rewrite KR in I5. exact I5.
        * rewrite app_nil_r. assert (X : existsb (Nat.eqb i) rest = existsb (Nat.eqb i) r).
          { rewrite E, existsb_app. cbn. destruct (Nat.eqb_spec i k); [contradiction|]. cbn.
            destruct (existsb (Nat.eqb i) a) eqn:Q; auto. apply existsb_in in Q. rewrite (H i Q) in D. discriminate. }
          rewrite X in I5. exact I5.
      + intros i I. rewrite got_app, got_one, (I6 i I). destruct (Nat.eqb_spec k i) as [EQ|NE]; auto. subst i. contradiction.
      + intro i. rewrite got_app, got_one. destruct (I7 i) as (G1 & G2). destruct (Nat.eqb_spec k i) as [EQ|NE].
        * subst i. destruct (G2 K) as (vs & GE). split.
          -- apply gram_snoc. eauto.
          -- intros _. exists (vs ++ [v]). rewrite GE, map_app. reflexivity.
        * rewrite app_nil_r. auto.
  Qed.

  Lemma ninv_run : forall subs, NoDup subs -> forall tr st, nrun subs tr = Some st -> ninv subs tr st.
  Proof.
    intros subs N. induction tr as [|a tr IH] using rev_ind; intros st R.
    - injection R as <-. constructor; cbn; auto; try contradiction.
      intro i. split; [exists [], []; auto|]. intros _. now exists [].
    - unfold nrun in R. rewrite nruns_app in R. fold (nrun subs tr) in R.
      destruct (nrun subs tr) as [s0|]; [|discriminate]. destruct (IH s0 eq_refl) as [I1 I2 I3 I4 I5 I6 I7 I8 I9]. clear IH.
      cbn [nruns] in R. destruct (nstep s0 a) as [s1|] eqn:E; [|discriminate]. injection R as <-.
      destruct a as [e| |k]; cbn [nstep] in E.
      + assert (PE : npushed (tr ++ [NPush e]) = npushed tr ++ [e]) by (rewrite npushed_app; reflexivity).
        assert (ST : forall i, In (NStop i) (tr ++ [NPush e]) <-> In (NStop i) tr).
        { intro i. split; intro H; [apply in_app_or in H; destruct H as [H|[H|[]]]; [auto|discriminate]|apply in_or_app; now left]. }
        destruct (n_over s0) eqn:O.
        * injection E as <-. constructor; auto.
          -- rewrite PE, over_app, <- I2, O. reflexivity.
          -- intros i I D. destruct (I4 i I D). discriminate.
          -- intros i I D. destruct (I4 i I D). discriminate.
          -- intros i H. apply I8. now apply ST.
        * destruct e as [v|x|].
          -- injection E as <-. rewrite I1. apply walk_inv; auto.
             ++ now exists [].
             ++ rewrite PE, over_app, <- I2, O. reflexivity.
             ++ intros i I D. split; auto. rewrite ST. now apply I4.
             ++ intros i I D. rewrite PE. apply existsb_in in I. rewrite I. apply existsb_in in I.
                rewrite (I5 i I D). rewrite <- app_assoc. apply Permutation_app_head. apply Permutation_app_comm.
             ++ intros i H. apply I8. now apply ST.
             ++ intros i I D. rewrite ST. rewrite O. auto.
          -- injection E as <-. rewrite I1.
             destruct (finish_facts (Err x) subs (NSt subs (n_dead s0) true (n_walks s0) (n_log s0)) N) as (A1 & A2 & A3 & A4 & A5 & A6).
             cbn [n_subs n_dead n_over n_walks n_log] in A1, A2, A3, A5, A6. constructor.
             ++ now rewrite A1.
             ++ rewrite A2, PE, over_app. cbn. now rewrite orb_true_r.
             ++ now rewrite A3.
             ++ intros i I D. rewrite (A4 i I) in D. discriminate.
             ++ intros i I D. rewrite (A4 i I) in D. discriminate.
             ++ intros i I. rewrite A6, (I6 i I). apply existsb_nin in I. now rewrite I.
             ++ intro i. rewrite A6. destruct (I7 i) as (G1 & G2).
                destruct (existsb (Nat.eqb i) subs) eqn:X; cbn.
                ** apply existsb_in in X. split; [|intro D; rewrite (A4 i X) in D; discriminate].
                   destruct (n_dead s0 i) eqn:D; cbn; [now rewrite app_nil_r|]. apply gram_snoc. auto.
                ** rewrite app_nil_r. split; auto. intro D. apply G2. destruct (n_dead s0 i) eqn:D0; auto. now rewrite (A5 i D0) in D.
             ++ intros i H. apply A5. apply I8. now apply ST.
             ++ intros i I D. left. exact A2.
          -- injection E as <-. rewrite I1.
             destruct (finish_facts Done subs (NSt subs (n_dead s0) true (n_walks s0) (n_log s0)) N) as (A1 & A2 & A3 & A4 & A5 & A6).
             cbn [n_subs n_dead n_over n_walks n_log] in A1, A2, A3, A5, A6. constructor.
             ++ now rewrite A1.
             ++ rewrite A2, PE, over_app. cbn. now rewrite orb_true_r.
             ++ now rewrite A3.
             ++ intros i I D. rewrite (A4 i I) in D. discriminate.
             ++ intros i I D. rewrite (A4 i I) in D. discriminate.
             ++ intros i I. rewrite A6, (I6 i I). apply existsb_nin in I. now rewrite I.
             ++ intro i. rewrite A6. destruct (I7 i) as (G1 & G2).
                destruct (existsb (Nat.eqb i) subs) eqn:X; cbn.
                ** apply existsb_in in X. split; [|intro D; rewrite (A4 i X) in D; discriminate].
                   destruct (n_dead s0 i) eqn:D; cbn; [now rewrite app_nil_r|]. apply gram_snoc. auto.
                ** rewrite app_nil_r. split; auto. intro D. apply G2. destruct (n_dead s0 i) eqn:D0; auto. now rewrite (A5 i D0) in D.
             ++ intros i H. apply A5. apply I8. now apply ST.
             ++ intros i I D. left. exact A2.
      + assert (PE : npushed (tr ++ [NReturn]) = npushed tr) by (rewrite npushed_app; apply app_nil_r).
        assert (ST : forall i, In (NStop i) (tr ++ [NReturn]) <-> In (@NStop V i) tr).
        { intro i. split; intro H; [apply in_app_or in H; destruct H as [H|[H|[]]]; [auto|discriminate]|apply in_or_app; now left]. }
        destruct (n_walks s0) as [|(v, r) w] eqn:W; [discriminate|]. injection E as <-.
        apply walk_inv; cbn [n_subs n_dead n_over n_walks n_log]; auto.
        * destruct (Forall_inv I3) as (a & SE & _). exists a. exact SE.
        * now rewrite PE.
        * exact (Forall_inv_tail I3).
        * intros i I D. rewrite ST. auto.
        * intros i I D. rewrite PE. exact (I5 i I D).
        * intros i H. apply I8. now apply ST.
        * intros i I D. rewrite ST. auto.
      + injection E as <-.
        assert (PE : npushed (tr ++ [NStop k]) = npushed tr) by (rewrite npushed_app; apply app_nil_r).
        constructor; cbn [n_subs n_dead n_over n_walks n_log]; auto; try (rewrite PE; auto).
        * intros i I D. apply orb_false_iff in D. destruct D as (D1 & D2). destruct (I4 i I D2) as (X & Y). split; auto.
          intro H. apply in_app_or in H. destruct H as [H|[H|[]]]; [auto|]. injection H as ->. now rewrite Nat.eqb_refl in D1.
        * intros i I D. apply orb_false_iff in D. apply I5; tauto.
        * intro i. destruct (I7 i). split; auto. intro D. apply orb_false_iff in D. tauto.
        * intros i H. apply in_app_or in H. destruct H as [H|[H|[]]]; [rewrite (I8 i H); apply orb_true_r|]. injection H as ->. now rewrite Nat.eqb_refl.
        * intros i I D. apply orb_true_iff in D. destruct D as [D|D].
          -- apply Nat.eqb_eq in D. subst i. right. apply in_or_app. right. now left.
          -- destruct (I9 i I D); auto. right. apply in_or_app. now left.
  Qed.
  Lemma walk_other : forall v rest st i, ~ In i rest \/ n_dead st i = true -> got i (n_log (walk v rest st)) = got i (n_log st).
  Proof.
    intros v rest st i H. destruct (walk_cases v rest st) as [(-> & _)|(a & k & r & E & _ & K & ->)]; auto.
    cbn [n_log]. rewrite got_app, got_one. destruct (Nat.eqb_spec k i) as [EQ|NE]; [|apply app_nil_r]. subst i. exfalso.
    destruct H as [H|H]; [|congruence]. apply H. rewrite E. apply in_or_app. right. now left.
  Qed.
  Lemma until_end_grows : forall (a b : list (ev V)), exists r, until_end (a ++ b) = until_end a ++ r.
  Proof.
    induction a as [|[v|x|] a IH]; intro b; cbn.
    - eexists. reflexivity.
    - destruct (IH b) as (r & ->). now exists r.
    - now exists [].
    - now exists [].
  Qed.
  Lemma until_end_open : forall l : list (ev V), over_in l = false -> until_end l = l.
  Proof. intros l H. rewrite <- (app_nil_r l) at 1. rewrite until_end_vals; auto. apply app_nil_r. Qed.

  Lemma first_run : forall f rest, NoDup (f :: rest) -> forall tr st, nrun (f :: rest) tr = Some st ->
    (exists r, until_end (npushed tr) = got f (n_log st) ++ r) /\
    (~ In (NStop f) tr -> got f (n_log st) = until_end (npushed tr)).
  Proof.
    intros f rest N. induction tr as [|a tr IH] using rev_ind; intros st R.
    - injection R as <-. cbn. split; auto. now exists [].
    - unfold nrun in R. rewrite nruns_app in R. fold (@nrun V (f :: rest) tr) in R.
      destruct (nrun (f :: rest) tr) as [s0|] eqn:R0; [|discriminate]. destruct (IH s0 eq_refl) as (P & X). clear IH.
      pose proof (ninv_run _ N tr s0 R0) as I. destruct I as [I1 I2 I3 I4 I5 I6 I7 I8 I9].
      cbn [nruns] in R. destruct (nstep s0 a) as [s1|] eqn:E; [|discriminate]. injection R as <-.
      assert (FI : In f (f :: rest)) by now left.
      destruct a as [e| |k]; cbn [nstep] in E.
      + assert (PE : npushed (tr ++ [NPush e]) = npushed tr ++ [e]) by (rewrite npushed_app; reflexivity).
        assert (ST : In (NStop f) (tr ++ [NPush e]) <-> In (NStop f) tr).
        { split; intro H; [apply in_app_or in H; destruct H as [H|[H|[]]]; [auto|discriminate]|apply in_or_app; now left]. }
        rewrite PE, ST. destruct (n_over s0) eqn:O.
        * injection E as <-. rewrite until_end_app by (symmetry; exact I2). auto.
        * assert (OP : until_end (npushed tr) = npushed tr) by (apply until_end_open; auto).
          destruct (n_dead s0 f) eqn:D.
          -- assert (SF : In (NStop f) tr). { destruct (I9 f FI D) as [Q|Q]; [discriminate|auto]. }
             split; [|intro; contradiction].
             assert (G : got f (n_log s1) = got f (n_log s0)).
             { destruct e as [v|x|]; injection E as <-.
               - apply walk_other. auto.
               - rewrite I1. destruct (finish_facts (Err x) (f :: rest) (NSt (f :: rest) (n_dead s0) true (n_walks s0) (n_log s0)) N) as (_ & _ & _ & _ & _ & A6).
                 rewrite A6. cbn [n_dead n_log]. rewrite D. rewrite andb_false_r. apply app_nil_r.
               - rewrite I1. destruct (finish_facts Done (f :: rest) (NSt (f :: rest) (n_dead s0) true (n_walks s0) (n_log s0)) N) as (_ & _ & _ & _ & _ & A6).
                 rewrite A6. cbn [n_dead n_log]. rewrite D. rewrite andb_false_r. apply app_nil_r. }
             rewrite G. destruct P as (r & P). destruct (until_end_grows (npushed tr) [e]) as (r2 & ->). rewrite P. exists (r ++ r2). now rewrite app_assoc.
          -- destruct (I4 f FI D) as (_ & NS). specialize (X NS).
             enough (G : got f (n_log s1) = until_end (npushed tr ++ [e])) by (rewrite G; split; auto; exists []; now rewrite app_nil_r).
             rewrite until_end_vals by (symmetry; exact I2).
             destruct e as [v|x|]; injection E as <-.
             ++ rewrite I1. cbn [walk]. rewrite D. cbn [n_log]. rewrite got_app, got_one, Nat.eqb_refl, X, OP. reflexivity.
             ++ rewrite I1. destruct (finish_facts (Err x) (f :: rest) (NSt (f :: rest) (n_dead s0) true (n_walks s0) (n_log s0)) N) as (_ & _ & _ & _ & _ & A6).
                rewrite A6. cbn [n_dead n_log existsb]. rewrite D, Nat.eqb_refl, X, OP. reflexivity.
             ++ rewrite I1. destruct (finish_facts Done (f :: rest) (NSt (f :: rest) (n_dead s0) true (n_walks s0) (n_log s0)) N) as (_ & _ & _ & _ & _ & A6).
                rewrite A6. cbn [n_dead n_log existsb]. rewrite D, Nat.eqb_refl, X, OP. reflexivity.
      + assert (PE : npushed (tr ++ [NReturn]) = npushed tr) by (rewrite npushed_app; apply app_nil_r).
        assert (ST : In (NStop f) (tr ++ [NReturn]) <-> In (@NStop V f) tr).
        { split; intro H; [apply in_app_or in H; destruct H as [H|[H|[]]]; [auto|discriminate]|apply in_or_app; now left]. }
        rewrite PE, ST. destruct (n_walks s0) as [|(v, r) w] eqn:W; [discriminate|]. injection E as <-.
        rewrite walk_other; auto. left. destruct (Forall_inv I3) as (a & SE & NA). cbn in SE.
        destruct a as [|y a]; [contradiction|]. injection SE as <- SE. inversion N; subst. intro. apply H1. apply in_or_app. now right.
      + injection E as <-. cbn [n_log]. rewrite npushed_app. cbn [npushed flat_map app]. change (flat_map _ tr) with (npushed tr). rewrite !app_nil_r. split; auto. intro H. apply X. intro. apply H. apply in_or_app. now left.
  Qed.

  Lemma stopped_run : forall subs, NoDup subs -> forall i tr st, nrun subs tr = Some st -> In (NStop i) tr ->
    forall tr' st', nrun subs (tr ++ tr') = Some st' -> got i (n_log st') = got i (n_log st).
  Proof.
    intros subs N i tr st R S. induction tr' as [|a tr' IH] using rev_ind; intros st' R'.
    - rewrite app_nil_r in R'. congruence.
    - rewrite app_assoc in R'. unfold nrun in R'. rewrite nruns_app in R'. fold (@nrun V subs (tr ++ tr')) in R'.
      destruct (nrun subs (tr ++ tr')) as [s0|] eqn:R0; [|discriminate]. rewrite <- (IH s0 eq_refl). clear IH.
      pose proof (ninv_run _ N _ s0 R0) as I. destruct I as [I1 I2 I3 I4 I5 I6 I7 I8 I9].
      assert (D : n_dead s0 i = true) by (apply I8; apply in_or_app; now left).
      cbn [nruns] in R'. destruct (nstep s0 a) as [s1|] eqn:E; [|discriminate]. injection R' as <-.
      destruct a as [e| |k]; cbn [nstep] in E.
      + destruct (n_over s0); [injection E as <-; auto|]. destruct e as [v|x|]; injection E as <-.
        * apply walk_other. auto.
        * rewrite I1. destruct (finish_facts (Err x) subs (NSt subs (n_dead s0) true (n_walks s0) (n_log s0)) N) as (_ & _ & _ & _ & _ & A6).
          rewrite A6. cbn [n_dead n_log]. rewrite D. rewrite andb_false_r. apply app_nil_r.
        * rewrite I1. destruct (finish_facts Done subs (NSt subs (n_dead s0) true (n_walks s0) (n_log s0)) N) as (_ & _ & _ & _ & _ & A6).
          rewrite A6. cbn [n_dead n_log]. rewrite D. rewrite andb_false_r. apply app_nil_r.
      + destruct (n_walks s0) as [|(v, r) w]; [discriminate|]. injection E as <-. rewrite walk_other; auto.
      + injection E as <-. reflexivity.
  Qed.

  Lemma end_run : forall subs, NoDup subs -> forall tr st, nrun subs tr = Some st -> forall i, In i subs -> ~ In (NStop i) tr ->
    (forall x, In x (npushed tr) -> is_term x = false) -> forall e, is_term e = true ->
    forall st', nrun subs (tr ++ [NPush e]) = Some st' -> got i (n_log st') = got i (n_log st) ++ [e].
  Proof.
    intros subs N tr st R i I S T e E st' R'. pose proof (ninv_run _ N _ st R) as [I1 I2 I3 I4 I5 I6 I7 I8 I9].
    assert (O : n_over st = false).
    { rewrite I2. destruct (over_in (npushed tr)) eqn:Q; auto. apply existsb_exists in Q. destruct Q as (x & Ie & Te). rewrite (T x Ie) in Te. discriminate. }
    assert (D : n_dead st i = false). { destruct (n_dead st i) eqn:Q; auto. destruct (I9 i I Q); [congruence|contradiction]. }
    unfold nrun in R'. rewrite nruns_app in R'. fold (@nrun V subs tr) in R'. rewrite R in R'. cbn [nruns nstep] in R'. rewrite O in R'.
    destruct e as [v|x|]; [discriminate| |]; injection R' as <-; rewrite I1.
    - destruct (finish_facts (Err x) subs (NSt subs (n_dead st) true (n_walks st) (n_log st)) N) as (_ & _ & _ & _ & _ & A6).
      rewrite A6. cbn [n_dead n_log]. rewrite D. apply existsb_in in I. rewrite I. reflexivity.
    - destruct (finish_facts Done subs (NSt subs (n_dead st) true (n_walks st) (n_log st)) N) as (_ & _ & _ & _ & _ & A6).
      rewrite A6. cbn [n_dead n_log]. rewrite D. apply existsb_in in I. rewrite I. reflexivity.
  Qed.

  Lemma walk_sub : forall v rest st i (X : list (ev V)), NoDup rest ->
    (exists t, Permutation X (got i (n_log st) ++ (if existsb (Nat.eqb i) rest then [Next v] else []) ++ owed i (n_walks st) ++ t)) ->
    exists t, Permutation X (got i (n_log (walk v rest st)) ++ owed i (n_walks (walk v rest st)) ++ t).
  Proof.
    intros v rest st i X N (t & P). destruct (walk_cases v rest st) as [(-> & _)|(a & k & r & E & _ & _ & ->)].
    - exists ((if existsb (Nat.eqb i) rest then [Next v] else []) ++ t).
      eapply Permutation_trans; [exact P|]. apply Permutation_app_head. rewrite !app_assoc. apply Permutation_app_tail. apply Permutation_app_comm.
    - cbn [n_log n_walks]. rewrite owed_cons, got_app, got_one.
      assert (KN : ~ In k r) by (subst rest; apply NoDup_remove_2 in N; intro; apply N; apply in_or_app; now right).
      rewrite (Nat.eqb_sym k i). destruct (Nat.eqb_spec i k) as [EQ|NE].
      + subst i. apply existsb_nin in KN. rewrite KN. cbn [app]. exists t. rewrite <- app_assoc.
        assert (KR : existsb (Nat.eqb k) rest = true) by (apply existsb_in; rewrite E; apply in_or_app; right; now left).
        rewrite KR in P. exact P.
      + rewrite app_nil_r. rewrite E, existsb_app in P. cbn [existsb] in P. destruct (Nat.eqb_spec i k); [contradiction|]. cbn [orb] in P.
        destruct (existsb (Nat.eqb i) r) eqn:Q.
        * rewrite orb_true_r in P. exists t. rewrite <- app_assoc. exact P.
        * rewrite orb_false_r in P. exists ((if existsb (Nat.eqb i) a then [Next v] else []) ++ t). cbn [app].
          eapply Permutation_trans; [exact P|]. apply Permutation_app_head. rewrite !app_assoc. apply Permutation_app_tail. apply Permutation_app_comm.
  Qed.
  Lemma sub_run : forall subs, NoDup subs -> forall i tr st, nrun subs tr = Some st ->
    exists t, Permutation (npushed tr) (got i (n_log st) ++ owed i (n_walks st) ++ t).
  Proof.
    intros subs N i. induction tr as [|a tr IH] using rev_ind; intros st R.
    - injection R as <-. exists []. constructor.
    - unfold nrun in R. rewrite nruns_app in R. fold (@nrun V subs tr) in R.
      destruct (nrun subs tr) as [s0|] eqn:R0; [|discriminate]. destruct (IH s0 eq_refl) as (t & P). clear IH.
      pose proof (ninv_run _ N tr s0 R0) as I. destruct I as [I1 I2 I3 I4 I5 I6 I7 I8 I9].
      cbn [nruns] in R. destruct (nstep s0 a) as [s1|] eqn:E; [|discriminate]. injection R as <-.
      rewrite npushed_app. destruct a as [e| |k]; cbn [nstep] in E; cbn [npushed flat_map app]; change (flat_map _ tr) with (npushed tr).
      + assert (FIN : forall e0, exists t0, Permutation (npushed tr ++ [e0]) (got i (n_log (finish e0 (n_subs s0) (NSt (n_subs s0) (n_dead s0) true (n_walks s0) (n_log s0)))) ++
            owed i (n_walks (finish e0 (n_subs s0) (NSt (n_subs s0) (n_dead s0) true (n_walks s0) (n_log s0)))) ++ t0)).
        { intro e0. rewrite I1. destruct (finish_facts e0 subs (NSt subs (n_dead s0) true (n_walks s0) (n_log s0)) N) as (_ & _ & A3 & _ & _ & A6).
          rewrite A3, A6. cbn [n_dead n_log n_walks]. destruct (existsb (Nat.eqb i) subs && negb (n_dead s0 i)).
          - exists t. rewrite <- app_assoc. eapply Permutation_trans; [apply Permutation_app_tail; exact P|].
            rewrite <- app_assoc. apply Permutation_app_head. apply Permutation_sym, Permutation_cons_append.
          - exists (t ++ [e0]). rewrite app_nil_r, !app_assoc. apply Permutation_app_tail. rewrite <- app_assoc. exact P. }
        destruct (n_over s0).
        * injection E as <-. exists (t ++ [e]). rewrite !app_assoc. apply Permutation_app_tail. rewrite <- app_assoc. exact P.
        * destruct e as [v|x|]; injection E as <-; [|apply FIN|apply FIN].
          apply walk_sub; [now rewrite I1|]. rewrite I1. destruct (existsb (Nat.eqb i) subs).
          -- exists t. eapply Permutation_trans; [apply Permutation_app_tail; exact P|].
             rewrite <- app_assoc. apply Permutation_app_head. apply Permutation_sym, Permutation_cons_append.
          -- exists (t ++ [Next v]). cbn [app]. rewrite !app_assoc. apply Permutation_app_tail. rewrite <- app_assoc. exact P.
      + rewrite app_nil_r. destruct (n_walks s0) as [|(v, r) w] eqn:W; [discriminate|]. injection E as <-.
        rewrite owed_cons, <- app_assoc in P.
        apply walk_sub; [|exists t; exact P].
        destruct (Forall_inv I3) as (a & SE & NA). cbn in SE. rewrite SE in N. clear -N.
        induction a; auto. cbn in N. inversion N; auto.
      + rewrite app_nil_r. injection E as <-. exists t. exact P.
  Qed.

  Lemma begun_app : forall a b : list (nat * ev V), begun (a ++ b) = begun a + begun b.
  Proof. intros. unfold begun. now rewrite filter_app, app_length. Qed.
  Lemma returned_app : forall a b : list (nact V), returned (a ++ b) = returned a + returned b.
  Proof. intros. unfold returned. now rewrite filter_app, app_length. Qed.
  Lemma walk_count : forall v rest st, begun (n_log (walk v rest st)) + length (n_walks st) = begun (n_log st) + length (n_walks (walk v rest st)).
  Proof.
    intros v rest st. destruct (walk_cases v rest st) as [(-> & _)|(a & k & r & _ & _ & _ & ->)]; auto.
    cbn [n_log n_walks length]. rewrite begun_app. cbn. lia.
  Qed.
  Lemma finish_count : forall e, is_term e = true -> forall rest st, begun (n_log (finish e rest st)) = begun (n_log st) /\ n_walks (finish e rest st) = n_walks st.
  Proof.
    intros e E. induction rest as [|k r IH]; intro st; cbn [finish]; auto. destruct (n_dead st k); auto.
    destruct (IH (NSt (n_subs st) (fun j => (j =? k) || n_dead st j) (n_over st) (n_walks st) (n_log st ++ [(k, e)]))) as (A & B).
    rewrite A, B. cbn [n_log n_walks]. split; auto. rewrite begun_app. unfold begun at 2. cbn. rewrite E. cbn. lia.
  Qed.
  Lemma count_run : forall subs tr st, nrun subs tr = Some st -> begun (n_log st) = length (n_walks st) + returned tr.
  Proof.
    intros subs. induction tr as [|a tr IH] using rev_ind; intros st R.
    - injection R as <-. reflexivity.
    - unfold nrun in R. rewrite nruns_app in R. fold (@nrun V subs tr) in R.
      destruct (nrun subs tr) as [s0|] eqn:R0; [|discriminate]. specialize (IH s0 eq_refl).
      cbn [nruns] in R. destruct (nstep s0 a) as [s1|] eqn:E; [|discriminate]. injection R as <-.
      rewrite returned_app. destruct a as [e| |k]; cbn [nstep] in E; unfold returned at 2; cbn [filter length].
      + destruct (n_over s0); [injection E as <-; lia|]. destruct e as [v|x|]; injection E as <-.
        * pose proof (walk_count v (n_subs s0) s0). lia.
        * destruct (finish_count (Err x) eq_refl (n_subs s0) (NSt (n_subs s0) (n_dead s0) true (n_walks s0) (n_log s0))) as (A & B). rewrite A, B. cbn [n_log n_walks]. lia.
        * destruct (finish_count Done eq_refl (n_subs s0) (NSt (n_subs s0) (n_dead s0) true (n_walks s0) (n_log s0))) as (A & B). rewrite A, B. cbn [n_log n_walks]. lia.
      + destruct (n_walks s0) as [|(v, r) w]; [discriminate|]. injection E as <-.
        pose proof (walk_count v r (NSt (n_subs s0) (n_dead s0) (n_over s0) w (n_log s0))) as C. cbn [n_log n_walks length] in *. lia.
      + injection E as <-. cbn [n_log n_walks]. lia.
  Qed.
  Lemma able_run : forall subs tr st, nrun subs tr = Some st -> forall a, (a = NReturn -> returned tr < begun (n_log st)) ->
    exists st', nrun subs (tr ++ [a]) = Some st'.
  Proof.
    intros subs tr st R a H. pose proof (count_run subs tr st R) as C. unfold nrun. rewrite nruns_app. fold (@nrun V subs tr). rewrite R.
    cbn [nruns]. destruct a as [e| |k]; cbn [nstep].
    - destruct (n_over st); [eexists; reflexivity|]. destruct e; eexists; reflexivity.
    - specialize (H eq_refl). destruct (n_walks st) as [|(v, r) w]; [cbn in C; lia|]. eexists. reflexivity.
    - eexists. reflexivity.
  Qed.
End P.
