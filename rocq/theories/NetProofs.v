(** Composite disposables put into each other, under every interleaving. *)
From Coq Require Import Permutation.
From Verif Require Import Base CompositeModel Concur NetSpec NetModel.
Open Scope nat_scope.

Lemma put_eq : forall X k (v : X) f, put k v f k = v.
Proof. intros. unfold put. now rewrite Nat.eqb_refl. Qed.
Lemma put_ne : forall X k (v : X) f i, i <> k -> put k v f i = f i.
Proof. intros. unfold put. now rewrite (proj2 (Nat.eqb_neq i k)). Qed.
Lemma put_case : forall X k (v : X) f i, (i = k /\ put k v f i = v) \/ (i <> k /\ put k v f i = f i).
Proof. intros. unfold put. destruct (Nat.eqb_spec i k); auto. Qed.

Definition holds (k : nat) (it : nitem) : bool :=
  match it with NPush i _ | NErase i _ | NStore i | NClr i => i =? k | _ => false end.
Lemma leads_snoc : forall cs i k j, leads cs i k -> In (Add k j) cs -> leads cs i j.
Proof. intros cs i k j H A. induction H as [i|i m k I H IH]; [eapply leads_on; eauto; constructor|eapply leads_on; eauto]. Qed.
Lemma leads_trans : forall cs i k j, leads cs i k -> leads cs k j -> leads cs i j.
Proof. intros cs i k j H. induction H; auto. intro G. eapply leads_on; eauto. Qed.
Lemma reason_snoc : forall cs k j, reason cs k -> In (Add k j) cs -> reason cs j.
Proof. intros cs k j [(i & D & H)|(i & m & C & A & H)] E; [left; exists i|right; exists i, m]; repeat split; auto; eapply leads_snoc; eauto. Qed.

Section Net.
  Variable progs : list (list call).
  Notation cs := (concat progs).
  Notation reach := (gexec nstep (n_init progs)).

  Lemma init_items : concat (snd (n_init progs)) = map NCall cs.
  Proof. cbn. now rewrite <- concat_map. Qed.

  (** ** Who holds, who was disposed *)
  Definition cnt (b : bool) : nat := if b then 1 else 0.
  Record inv1 (s : net) (l : list nitem) (tr : list nat) : Prop := I1 {
    i_hold : forall k, count (holds k) l = match nt_st s k with CEdit => 1 | _ => 0 end;
    i_tr : forall k, In k tr <-> nt_st s k = CDisposed;
    i_nd : NoDup tr;
    i_kids : forall k, nt_st s k = CDisposed -> nt_kids s k = [] \/ In (NKids k) l;
    i_dead : forall k, In (NKids k) l -> nt_st s k = CDisposed }.

  Lemma inv1_perm : forall s l l' t, Permutation l l' -> inv1 s l t -> inv1 s l' t.
  Proof.
    intros s l l' t P [H1 H2 H3 H4 H5]. constructor; auto.
    - intro k. rewrite <- H1. apply count_perm. now symmetry.
    - intros k D. destruct (H4 k D) as [|I]; auto. right. eapply Permutation_in; eauto.
    - intros k I. apply H5. eapply Permutation_in; [symmetry|]; eauto.
  Qed.
  Lemma inv1_step : forall s it l t s' its ls, inv1 s (it :: l) t -> nstep s it = Some (s', its, ls) -> inv1 s' (its ++ l) (t ++ ls).
  Proof.
    intros s it l t s' its ls [H1 H2 H3 H4 H5] ST.
      destruct it as [[k|k j|k j|k]|k j|k j|k j|k|k|k]; cbn [nstep] in ST.
      + destruct (nt_st s k) eqn:Q; try discriminate; injection ST as <- <- <-; cbn [nt_st nt_kids app].
        * constructor; cbn [nt_st nt_kids].
          -- intro i. specialize (H1 i). rewrite count_cons in *. cbn [holds] in *. destruct (put_case _ k CDisposed (nt_st s) i) as [(-> & ->)|(N & ->)]; auto. rewrite Q in H1. auto.
          -- intro i. rewrite in_app_iff. destruct (put_case _ k CDisposed (nt_st s) i) as [(-> & ->)|(N & ->)]; [intuition|]. rewrite H2. cbn. intuition congruence.
          -- rewrite <- (rev_involutive (t ++ [k])). apply NoDup_rev. rewrite rev_app_distr. cbn. constructor; [rewrite <- in_rev, H2; congruence|now apply NoDup_rev].
          -- intros i D. destruct (put_case _ k CDisposed (nt_st s) i) as [(-> & E1)|(N & E1)]; [right; now left|]. rewrite E1 in D. destruct (H4 i D) as [|[I|I]]; auto; [discriminate|]. right. now right.
          -- intros i [I|I]; [injection I as <-; apply put_eq|]. destruct (put_case _ k CDisposed (nt_st s) i) as [(-> & ->)|(N & ->)]; auto. apply H5. now right.
        * rewrite app_nil_r. constructor; [|try exact H2|try exact H3| |].
          -- intro i. specialize (H1 i). now rewrite count_cons in H1.
          -- intros i D. destruct (H4 i D) as [|[I|I]]; auto. discriminate.
          -- intros i I. apply H5. now right.
      + assert (G : (its = [] \/ its = [NAddCas k j]) /\ s' = s /\ ls = []) by (destruct (nt_st s j); try destruct (j =? k); injection ST as <- <- <-; auto).
        destruct G as (G & -> & ->). rewrite app_nil_r. constructor; [|try exact H2|try exact H3| |].
        * intro i. specialize (H1 i). rewrite count_app. rewrite count_cons in H1. destruct G as [->| ->]; auto.
        * intros i D. destruct (H4 i D) as [|[I|I]]; auto; [discriminate|]. right. apply in_or_app. now right.
        * intros i I. apply H5. right. apply in_app_or in I. destruct I as [I|I]; auto. exfalso. destruct G as [->| ->]; [easy|]. destruct I as [I|[]]. discriminate.
      + destruct (nt_st s k) eqn:Q; try discriminate; injection ST as <- <- <-; cbn [nt_st nt_kids app]; rewrite app_nil_r; (constructor; cbn [nt_st nt_kids]; [|try exact H2|try exact H3| |]).
        * intro i. specialize (H1 i). rewrite count_cons in *. cbn [holds] in *. destruct (put_case _ k CEdit (nt_st s) i) as [(-> & ->)|(N & ->)]; [rewrite Nat.eqb_refl, Q in *; lia|]. rewrite (proj2 (Nat.eqb_neq k i)) by auto. auto.
        * intro i. rewrite H2. destruct (put_case _ k CEdit (nt_st s) i) as [(-> & ->)|(N & ->)]; [rewrite Q; split; discriminate|reflexivity].
        * intros i D. destruct (put_case _ k CEdit (nt_st s) i) as [(-> & E1)|(N & E1)]; rewrite E1 in D; [discriminate|]. destruct (H4 i D) as [|[I|I]]; auto; [discriminate|]. right. now right.
        * intros i [I|I]; [discriminate|]. specialize (H5 i (or_intror I)). destruct (put_case _ k CEdit (nt_st s) i) as [(-> & ->)|(N & ->)]; [congruence|auto].
        * intro i. specialize (H1 i). now rewrite count_cons in H1.
        * intros i D. destruct (H4 i D) as [|[I|I]]; auto. discriminate.
        * intros i I. apply H5. now right.
      + destruct (nt_st s k) eqn:Q; try discriminate; injection ST as <- <- <-; cbn [nt_st nt_kids app]; rewrite app_nil_r; (constructor; cbn [nt_st nt_kids]; [|try exact H2|try exact H3| |]).
        * intro i. specialize (H1 i). rewrite count_cons in *. cbn [holds] in *. destruct (put_case _ k CEdit (nt_st s) i) as [(-> & ->)|(N & ->)]; [rewrite Nat.eqb_refl, Q in *; lia|]. rewrite (proj2 (Nat.eqb_neq k i)) by auto. auto.
        * intro i. rewrite H2. destruct (put_case _ k CEdit (nt_st s) i) as [(-> & ->)|(N & ->)]; [rewrite Q; split; discriminate|reflexivity].
        * intros i D. destruct (put_case _ k CEdit (nt_st s) i) as [(-> & E1)|(N & E1)]; rewrite E1 in D; [discriminate|]. destruct (H4 i D) as [|[I|I]]; auto; [discriminate|]. right. now right.
        * intros i [I|I]; [discriminate|]. specialize (H5 i (or_intror I)). destruct (put_case _ k CEdit (nt_st s) i) as [(-> & ->)|(N & ->)]; [congruence|auto].
        * intro i. specialize (H1 i). now rewrite count_cons in H1.
        * intros i D. destruct (H4 i D) as [|[I|I]]; auto. discriminate.
        * intros i I. apply H5. now right.
      + destruct (nt_st s k) eqn:Q; try discriminate; injection ST as <- <- <-; cbn [nt_st nt_kids app]; rewrite app_nil_r; (constructor; cbn [nt_st nt_kids]; [|try exact H2|try exact H3| |]).
        * intro i. specialize (H1 i). rewrite count_cons in *. cbn [holds] in *. destruct (put_case _ k CEdit (nt_st s) i) as [(-> & ->)|(N & ->)]; [rewrite Nat.eqb_refl, Q in *; lia|]. rewrite (proj2 (Nat.eqb_neq k i)) by auto. auto.
        * intro i. rewrite H2. destruct (put_case _ k CEdit (nt_st s) i) as [(-> & ->)|(N & ->)]; [rewrite Q; split; discriminate|reflexivity].
        * intros i D. destruct (put_case _ k CEdit (nt_st s) i) as [(-> & E1)|(N & E1)]; rewrite E1 in D; [discriminate|]. destruct (H4 i D) as [|[I|I]]; auto; [discriminate|]. right. now right.
        * intros i [I|I]; [discriminate|]. specialize (H5 i (or_intror I)). destruct (put_case _ k CEdit (nt_st s) i) as [(-> & ->)|(N & ->)]; [congruence|auto].
        * intro i. specialize (H1 i). now rewrite count_cons in H1.
        * intros i D. destruct (H4 i D) as [|[I|I]]; auto; [discriminate|]. right. now right.
        * intros i [I|I]; [discriminate|]. apply H5. now right.
      + injection ST as <- <- <-. cbn [nt_st nt_kids app]. rewrite app_nil_r. (constructor; cbn [nt_st nt_kids]; [|try exact H2|try exact H3| |]).
        * intro i. specialize (H1 i). now rewrite count_cons in *.
        * intros i D. specialize (H1 i). rewrite D, count_cons in H1. cbn [holds] in H1. destruct (put_case _ k (nt_kids s k ++ [j]) (nt_kids s) i) as [(-> & _)|(N & ->)]; [rewrite Nat.eqb_refl in H1; lia|]. destruct (H4 i D) as [|[I|I]]; auto; [discriminate|]. right. now right.
        * intros i [I|I]; [discriminate|]. apply H5. now right.
      + injection ST as <- <- <-. cbn [nt_st nt_kids app]. rewrite app_nil_r. (constructor; cbn [nt_st nt_kids]; [|try exact H2|try exact H3| |]).
        * intro i. specialize (H1 i). now rewrite count_cons in *.
        * intros i D. specialize (H1 i). rewrite D, count_cons in H1. cbn [holds] in H1. destruct (put_case _ k (filter (fun x => negb (x =? j)) (nt_kids s k)) (nt_kids s) i) as [(-> & _)|(N & ->)]; [rewrite Nat.eqb_refl in H1; lia|]. destruct (H4 i D) as [|[I|I]]; auto; [discriminate|]. right. now right.
        * intros i [I|I]; [discriminate|]. apply H5. now right.
      + injection ST as <- <- <-. cbn [nt_st nt_kids app]. rewrite app_nil_r.
        assert (QE : nt_st s k = CEdit). { specialize (H1 k). rewrite count_cons in H1. cbn [holds] in H1. rewrite Nat.eqb_refl in H1. destruct (nt_st s k); auto; lia. }
        (constructor; cbn [nt_st nt_kids]; [|try exact H2|try exact H3| |]).
        * intro i. specialize (H1 i). rewrite count_cons in *. cbn [holds] in *. destruct (put_case _ k CNone (nt_st s) i) as [(-> & ->)|(N & ->)]; [rewrite Nat.eqb_refl, QE in *; lia|]. rewrite (proj2 (Nat.eqb_neq k i)) in H1 by auto. auto.
        * intro i. rewrite H2. destruct (put_case _ k CNone (nt_st s) i) as [(-> & ->)|(N & ->)]; [rewrite QE; split; discriminate|reflexivity].
        * intros i D. destruct (put_case _ k CNone (nt_st s) i) as [(-> & E1)|(N & E1)]; rewrite E1 in D; [discriminate|]. destruct (H4 i D) as [|[I|I]]; auto. discriminate.
        * intros i I. specialize (H5 i (or_intror I)). destruct (put_case _ k CNone (nt_st s) i) as [(-> & ->)|(N & ->)]; [congruence|auto].
      + assert (D0 : nt_st s k = CDisposed) by (apply H5; now left). destruct (nt_kids s k) as [|j r] eqn:K; injection ST as <- <- <-; cbn [nt_st nt_kids app]; rewrite app_nil_r; (constructor; cbn [nt_st nt_kids]; [|try exact H2|try exact H3| |]).
        * intro i. specialize (H1 i). now rewrite count_cons in H1.
        * intros i D. destruct (H4 i D) as [|[I|I]]; auto. injection I as <-. auto.
        * intros i I. apply H5. now right.
        * intro i. specialize (H1 i). now rewrite !count_cons in *.
        * intros i D. destruct (put_case _ k r (nt_kids s) i) as [(-> & _)|(N & ->)]; [right; right; now left|]. destruct (H4 i D) as [|[I|I]]; auto; [congruence|]. right. right. now right.
        * intros i [I|[I|I]]; [discriminate|injection I as <-; auto|]. apply H5. now right.
      + destruct (nt_kids s k) as [|j r] eqn:K; injection ST as <- <- <-; cbn [nt_st nt_kids app]; rewrite app_nil_r; (constructor; cbn [nt_st nt_kids]; [|try exact H2|try exact H3| |]).
        * intro i. specialize (H1 i). now rewrite !count_cons in *.
        * intros i D. destruct (H4 i D) as [|[I|I]]; auto; [discriminate|]. right. now right.
        * intros i [I|I]; [discriminate|]. apply H5. now right.
        * intro i. specialize (H1 i). now rewrite !count_cons in *.
        * intros i D. specialize (H1 i). rewrite D, count_cons in H1. cbn [holds] in H1. destruct (put_case _ k r (nt_kids s) i) as [(-> & _)|(N & ->)]; [rewrite Nat.eqb_refl in H1; lia|]. destruct (H4 i D) as [|[I|I]]; auto; [discriminate|]. right. right. now right.
        * intros i [I|[I|I]]; try discriminate. apply H5. now right.
  Qed.
  Lemma inv1_init : inv1 (fst (n_init progs)) (concat (snd (n_init progs))) [].
  Proof.
    rewrite init_items. constructor; cbn; auto; try easy.
      + intro k. apply count_zero_of. intros x I. apply in_map_iff in I. destruct I as (y & <- & _). reflexivity.
      + constructor.
      + intros k I. apply in_map_iff in I. destruct I as (y & Q & _). discriminate.
  Qed.

  (** ** Where everything comes from *)
  Record inv2 (s : net) (l : list nitem) : Prop := I2 {
    j_call : forall c, In (NCall c) l -> match c with Dispose j => reason cs j | _ => In c cs end;
    j_add : forall k j, In (NAddCas k j) l \/ In (NPush k j) l -> In (Add k j) cs /\ j <> k;
    j_rem : forall k j, In (NErase k j) l -> In (Remove k j) cs;
    j_clr : forall k, In (NClr k) l -> In (Clear k) cs;
    j_run : forall k, In (NKids k) l -> reason cs k;
    j_kids : forall k j, In j (nt_kids s k) -> In (Add k j) cs /\ j <> k;
    j_st : forall k, nt_st s k = CDisposed -> reason cs k }.
  Lemma inv2_perm : forall s l l', Permutation l l' -> inv2 s l -> inv2 s l'.
  Proof.
    intros s l l' P [C A R L K KI S]. assert (X : forall x, In x l' -> In x l) by (intros x I; eapply Permutation_in; [symmetry|]; eauto).
    constructor; [intros c I; apply C; auto|intros k j [I|I]; auto| | | | |]; auto.
  Qed.
  Lemma inv2_next : forall s it l s' its, inv2 s (it :: l) ->
    (forall x, In x its -> inv2 s [x]) ->
    (forall k j, In j (nt_kids s' k) -> In (Add k j) cs /\ j <> k) ->
    (forall k, nt_st s' k = CDisposed -> reason cs k) -> inv2 s' (its ++ l).
  Proof.
    intros s it l s' its [C A R L K KI S] X KI' S'.
    assert (Y : forall x, In x (its ++ l) -> inv2 s [x]).
    { intros x I. apply in_app_or in I. destruct I as [I|I]; auto. constructor; try exact KI; try exact S.
      - intros c [->|[]]. apply C. now right.
      - intros k j [[->|[]]|[->|[]]]; apply A; [left|right]; now right.
      - intros k j [->|[]]. apply R. now right.
      - intros k [->|[]]. apply L. now right.
      - intros k [->|[]]. apply K. now right. }
    constructor; try exact KI'; try exact S'.
    - intros c I. apply (j_call _ _ (Y _ I)). now left.
    - intros k j [I|I]; apply (j_add _ _ (Y _ I)); [left|right]; now left.
    - intros k j I. apply (j_rem _ _ (Y _ I)). now left.
    - intros k I. apply (j_clr _ _ (Y _ I)). now left.
    - intros k I. apply (j_run _ _ (Y _ I)). now left.
  Qed.
  Ltac one H := let x := fresh in let I := fresh in intros x I; destruct I as [<-|[]]; constructor; try exact (j_kids _ _ H); try exact (j_st _ _ H);
    [intros ? [Q0|[]]; try discriminate Q0; injection Q0 as <-|intros ? ? [[Q0|[]]|[Q0|[]]]; try discriminate Q0; injection Q0 as <- <-|intros ? ? [Q0|[]]; try discriminate Q0; injection Q0 as <- <-|
     intros ? [Q0|[]]; try discriminate Q0; injection Q0 as <-|intros ? [Q0|[]]; try discriminate Q0; injection Q0 as <-].
  Lemma inv2_step : forall s it l s' its ls, inv2 s (it :: l) -> nstep s it = Some (s', its, ls) -> inv2 s' (its ++ l).
  Proof.
    intros s it l s' its ls H ST. pose proof (j_call _ _ H) as C. pose proof (j_kids _ _ H) as KI. pose proof (j_st _ _ H) as S.
    assert (SE : forall k v, v <> CDisposed -> forall i, put k v (nt_st s) i = CDisposed -> reason cs i).
    { intros k v N i D. destruct (put_case _ k v (nt_st s) i) as [(-> & E)|(_ & E)]; rewrite E in D; [contradiction|auto]. }
    assert (KE : forall k r, (forall j, In j r -> In j (nt_kids s k)) -> forall i j, In j (put k r (nt_kids s) i) -> In (Add i j) cs /\ j <> i).
    { intros k r G i j I. destruct (put_case _ k r (nt_kids s) i) as [(-> & E)|(_ & E)]; rewrite E in I; auto. }
    destruct it as [[k|k j|k j|k]|k j|k j|k j|k|k|k]; cbn [nstep] in ST.
    - destruct (nt_st s k) eqn:Q; try discriminate; injection ST as <- <- <-; apply (inv2_next s _ l _ _ H); cbn [nt_kids nt_st]; try exact KI; try exact S; try (now intros ? []).
      + one H. apply (C (Dispose k)). now left.
      + intros i D. destruct (put_case _ k CDisposed (nt_st s) i) as [(-> & E)|(_ & E)]; [apply (C (Dispose k)); now left|]. rewrite E in D. auto.
    - assert (G : (its = [] \/ its = [NAddCas k j] /\ j <> k) /\ s' = s) by (destruct (nt_st s j); try (destruct (Nat.eqb_spec j k)); injection ST as <- <- <-; auto).
      destruct G as ([->|(-> & N)] & ->); apply (inv2_next s _ l _ _ H); try exact KI; try exact S; try (now intros ? []). one H. split; auto. apply (C (Add k j)). now left.
    - destruct (nt_st s k) eqn:Q; try discriminate; injection ST as <- <- <-; apply (inv2_next s _ l _ _ H); cbn [nt_kids nt_st]; try exact KI; try exact S; try (now intros ? []).
      + one H. apply (C (Remove k j)). now left.
      + apply SE. discriminate.
    - destruct (nt_st s k) eqn:Q; try discriminate; injection ST as <- <- <-; apply (inv2_next s _ l _ _ H); cbn [nt_kids nt_st]; try exact KI; try exact S; try (now intros ? []).
      + one H. apply (C (Clear k)). now left.
      + apply SE. discriminate.
    - pose proof (j_add _ _ H k j (or_introl (or_introl eq_refl))) as (A & N).
      destruct (nt_st s k) eqn:Q; try discriminate; injection ST as <- <- <-; apply (inv2_next s _ l _ _ H); cbn [nt_kids nt_st]; try exact KI; try exact S; try (now intros ? []).
      + one H. auto.
      + apply SE. discriminate.
      + one H. eapply reason_snoc; eauto.
    - pose proof (j_add _ _ H k j (or_intror (or_introl eq_refl))) as (A & N). injection ST as <- <- <-. apply (inv2_next s _ l _ _ H); cbn [nt_kids nt_st]; try exact KI; try exact S; try (now intros ? []).
      + one H.
      + intros i x I. destruct (put_case _ k (nt_kids s k ++ [j]) (nt_kids s) i) as [(-> & E)|(_ & E)]; rewrite E in I; auto. apply in_app_or in I. destruct I as [I|[<-|[]]]; auto.
    - injection ST as <- <- <-. apply (inv2_next s _ l _ _ H); cbn [nt_kids nt_st]; try exact KI; try exact S; try (now intros ? []). { one H. } apply KE. intros x I. apply filter_In in I. apply I.
    - injection ST as <- <- <-. apply (inv2_next s _ l _ _ H); cbn [nt_kids nt_st]; try exact KI; try exact S; try (now intros ? []). apply SE. discriminate.
    - pose proof (j_run _ _ H k (or_introl eq_refl)) as R. destruct (nt_kids s k) as [|j r] eqn:K; injection ST as <- <- <-; apply (inv2_next s _ l _ _ H); cbn [nt_kids nt_st]; try exact KI; try exact S; try (now intros ? []).
      + intros x [<-|[<-|[]]].
        * assert (IJ : In j (nt_kids s k)) by (rewrite K; now left). apply KI in IJ. cut (forall x, In x [NCall (Dispose j)] -> inv2 s [x]); [intro G; apply G; now left|]. one H. eapply reason_snoc; [exact R|apply IJ].
        * cut (forall x, In x [NKids k] -> inv2 s [x]); [intro G; apply G; now left|]. one H. auto.
      + apply KE. intros x I. rewrite K. now right.
    - pose proof (j_clr _ _ H k (or_introl eq_refl)) as R. destruct (nt_kids s k) as [|j r] eqn:K; injection ST as <- <- <-; apply (inv2_next s _ l _ _ H); cbn [nt_kids nt_st]; try exact KI; try exact S; try (now intros ? []).
      + one H.
      + intros x [<-|[<-|[]]].
        * assert (IJ : In j (nt_kids s k)) by (rewrite K; now left). apply KI in IJ. cut (forall x, In x [NCall (Dispose j)] -> inv2 s [x]); [intro G; apply G; now left|]. one H. right. exists k, j. repeat split; auto; [apply IJ|constructor].
        * cut (forall x, In x [NClr k] -> inv2 s [x]); [intro G; apply G; now left|]. one H. auto.
      + apply KE. intros x I. rewrite K. now right.
  Qed.
  Lemma inv2_init : inv2 (fst (n_init progs)) (concat (snd (n_init progs))).
  Proof.
    rewrite init_items. assert (X : forall x, In x (map NCall cs) -> exists c, x = NCall c /\ In c cs) by (intros x I; apply in_map_iff in I; destruct I as (c & <- & I); eauto).
    constructor; cbn; try easy.
    - intros c I. apply X in I. destruct I as (c' & Q & I). injection Q as <-. destruct c; auto. left. exists k. split; auto. constructor.
    - intros k j [I|I]; apply X in I; destruct I as (c' & Q & _); discriminate.
    - intros k j I. apply X in I. destruct I as (c' & Q & _). discriminate.
    - intros k I. apply X in I. destruct I as (c' & Q & _). discriminate.
    - intros k I. apply X in I. destruct I as (c' & Q & _). discriminate.
  Qed.

  (** ** What was added does not get lost *)
  Section Kept.
    Variables (k0 j0 : nat).
    Hypothesis NE : j0 <> k0.
    Hypothesis NR : ~ In (Remove k0 j0) cs.
    Definition kept (s : net) (l : list nitem) (tr : list nat) : Prop :=
      In (NCall (Add k0 j0)) l \/ In (NAddCas k0 j0) l \/ In (NPush k0 j0) l \/ In j0 (nt_kids s k0) \/ In (NCall (Dispose j0)) l \/ In j0 tr.
    Lemma kept_step : forall s it l tr s' its ls, inv1 s (it :: l) tr -> inv2 s (it :: l) -> kept s (it :: l) tr -> nstep s it = Some (s', its, ls) -> kept s' (its ++ l) (tr ++ ls).
    Proof.
      intros s it l tr s' its ls H1 H2 K ST. pose proof (i_tr _ _ _ H1) as TR.
      assert (REST : (In (NCall (Add k0 j0)) l \/ In (NAddCas k0 j0) l \/ In (NPush k0 j0) l \/ In (NCall (Dispose j0)) l \/ In j0 tr) -> kept s' (its ++ l) (tr ++ ls)).
      { unfold kept. rewrite !in_app_iff. tauto. }
      assert (KID : (In j0 (nt_kids s k0) -> In j0 (nt_kids s' k0)) -> In j0 (nt_kids s k0) -> kept s' (its ++ l) (tr ++ ls)) by (unfold kept; tauto).
      unfold kept in K. cbn [In] in K.
      destruct it as [[k|k j|k j|k]|k j|k j|k j|k|k|k]; cbn [nstep] in ST.
      - destruct (nt_st s k) eqn:Q; try discriminate; injection ST as <- <- <-; cbn [nt_kids] in *.
        + destruct K as [[K|K]|[[K|K]|[[K|K]|[K|[[K|K]|K]]]]]; try discriminate; try (apply REST; tauto); auto. injection K as ->. unfold kept. rewrite !in_app_iff. cbn. tauto.
        + destruct K as [[K|K]|[[K|K]|[[K|K]|[K|[[K|K]|K]]]]]; try discriminate; try (apply REST; tauto); auto. injection K as ->. apply TR in Q. apply REST. tauto.
      - destruct K as [[K|K]|[[K|K]|[[K|K]|[K|[[K|K]|K]]]]]; try discriminate; try (apply REST; tauto).
        + injection K as -> ->. rewrite (proj2 (Nat.eqb_neq j0 k0)) in ST by auto. destruct (nt_st s j0) eqn:Q; injection ST as <- <- <-; [unfold kept; cbn; tauto..|]. apply TR in Q. apply REST. tauto.
        + apply KID; auto. destruct (nt_st s j), (j =? k); injection ST as <- <- <-; auto.
      - destruct (nt_st s k) eqn:Q; try discriminate; injection ST as <- <- <-; destruct K as [[K|K]|[[K|K]|[[K|K]|[K|[[K|K]|K]]]]]; try discriminate; try (apply REST; tauto); apply KID; auto.
      - destruct (nt_st s k) eqn:Q; try discriminate; injection ST as <- <- <-; destruct K as [[K|K]|[[K|K]|[[K|K]|[K|[[K|K]|K]]]]]; try discriminate; try (apply REST; tauto); apply KID; auto.
      - destruct (nt_st s k) eqn:Q; try discriminate; injection ST as <- <- <-; destruct K as [[K|K]|[[K|K]|[[K|K]|[K|[[K|K]|K]]]]]; try discriminate; try (apply REST; tauto); try (apply KID; now auto).
        + injection K as -> ->. unfold kept. cbn. tauto.
        + injection K as -> ->. unfold kept. cbn. tauto.
      - injection ST as <- <- <-. cbn [nt_kids] in *. destruct K as [[K|K]|[[K|K]|[[K|K]|[K|[[K|K]|K]]]]]; try discriminate; try (apply REST; tauto).
        + injection K as -> ->. do 3 right. left. cbn [nt_kids]. rewrite put_eq. apply in_or_app. right. now left.
        + apply KID; auto. intro I. destruct (put_case _ k (nt_kids s k ++ [j]) (nt_kids s) k0) as [(<- & ->)|(_ & ->)]; auto. apply in_or_app. now left.
      - injection ST as <- <- <-. cbn [nt_kids] in *. destruct K as [[K|K]|[[K|K]|[[K|K]|[K|[[K|K]|K]]]]]; try discriminate; try (apply REST; tauto).
        apply KID; auto. intro I. destruct (put_case _ k (filter (fun x => negb (x =? j)) (nt_kids s k)) (nt_kids s) k0) as [(E & ->)|(_ & ->)]; auto. subst k. apply filter_In. split; auto.
        destruct (Nat.eqb_spec j0 j) as [<-|]; auto. exfalso. apply NR. apply (j_rem _ _ H2). now left.
      - injection ST as <- <- <-. destruct K as [[K|K]|[[K|K]|[[K|K]|[K|[[K|K]|K]]]]]; try discriminate; try (apply REST; tauto). apply KID; auto.
      - destruct K as [[K|K]|[[K|K]|[[K|K]|[K|[[K|K]|K]]]]]; try discriminate; try (apply REST; tauto).
        destruct (nt_kids s k) as [|j r] eqn:Q; injection ST as <- <- <-; [apply KID; auto|]. unfold kept. cbn [nt_kids]. destruct (put_case _ k r (nt_kids s) k0) as [(E & ->)|(_ & ->)]; [|tauto]. subst k. rewrite Q in K. destruct K as [->|K]; [cbn; tauto|tauto].
      - destruct K as [[K|K]|[[K|K]|[[K|K]|[K|[[K|K]|K]]]]]; try discriminate; try (apply REST; tauto).
        destruct (nt_kids s k) as [|j r] eqn:Q; injection ST as <- <- <-; [apply KID; auto|]. unfold kept. cbn [nt_kids]. destruct (put_case _ k r (nt_kids s) k0) as [(E & ->)|(_ & ->)]; [|tauto]. subst k. rewrite Q in K. destruct K as [->|K]; [cbn; tauto|tauto].
    Qed.
  End Kept.

  Definition all3 (s : net) (l : list nitem) (tr : list nat) : Prop :=
    inv1 s l tr /\ inv2 s l /\ forall k j, In (Add k j) cs -> j <> k -> ~ In (Remove k j) cs -> kept k j s l tr.
  Lemma reach_all : forall tr c, reach tr c -> all3 (fst c) (concat (snd c)) tr.
  Proof.
    intros tr c E. eapply gexec_inv; [| |exact E|].
    - intros s l l' t P (A & B & C). split; [eapply inv1_perm; eauto|]. split; [eapply inv2_perm; eauto|]. intros k j I N R. specialize (C k j I N R). unfold kept in *.
      assert (X : forall x, In x l -> In x l') by (intro x; now apply Permutation_in). intuition.
    - intros s it l t s' its ls (A & B & C) ST. split; [eapply inv1_step; eauto|]. split; [eapply inv2_step; eauto|]. intros k j I N R. eapply kept_step; eauto.
    - split; [apply inv1_init|]. split; [apply inv2_init|]. intros k j I _ _. left. rewrite init_items. now apply in_map.
  Qed.

  (** ** Somebody can always go on *)
  Definition under (k j : nat) : Prop := exists m, In (Add k m) cs /\ m <> k /\ leads cs m j.
  Definition disp (P : nat -> Prop) (x : nitem) : Prop := match x with NCall (Dispose j) | NKids j => P j | _ => False end.
  Definition brief (x : nitem) : Prop := match x with NPush _ _ | NErase _ _ | NStore _ | NAddCas _ _ => True | _ => False end.
  Definition shape (t : list nitem) : Prop :=
    (exists x p, t = x :: map NCall p /\ brief x) \/
    (exists D H p, t = D ++ H ++ map NCall p /\ ((H = [] /\ Forall (disp (fun _ => True)) D) \/ (exists k, H = [NClr k] /\ Forall (disp (under k)) D))).
  Lemma under_more : forall k j i, under k j -> In (Add j i) cs -> under k i.
  Proof. intros k j i (m & A & N & L) B. exists m. repeat split; auto. eapply leads_snoc; eauto. Qed.

  Lemma shape_step : forall s it rest l s' its ls, inv2 s l -> In it l -> shape (it :: rest) -> nstep s it = Some (s', its, ls) -> shape (its ++ rest).
  Proof.
    intros s it rest l s' its ls H2 IN SH ST.
    assert (PROG : forall p, shape (map NCall p)) by (intro p; right; exists [], [], p; split; auto).
    assert (BR : forall x p, brief x -> shape (x :: map NCall p)) by (intros x p B; left; eauto).
    destruct SH as [(x & p & E & B)|(D & H & p & E & X)].
    - injection E as -> ->. destruct x as [c|k j|k j|k j|k|k|k]; cbn in B; try easy; cbn [nstep] in ST.
      + destruct (nt_st s k); try discriminate; injection ST as <- <- <-; [apply BR; exact I|]. right. exists [NCall (Dispose j)], [], p. split; [reflexivity|]. left. split; [reflexivity|]. constructor; [exact I|constructor].
      + injection ST as <- <- <-. apply BR. exact I.
      + injection ST as <- <- <-. apply BR. exact I.
      + injection ST as <- <- <-. apply PROG.
    - destruct D as [|d D].
      + destruct X as [(-> & _)|(k & -> & _)]; cbn [app] in E.
        * destruct p as [|c p]; [discriminate|]. injection E as -> ->. cbn [map]. destruct c as [k|k j|k j|k]; cbn [nstep] in ST.
          -- destruct (nt_st s k); try discriminate; injection ST as <- <- <-; [|apply PROG]. right. exists [NKids k], [], p. split; [reflexivity|]. left. split; [reflexivity|]. constructor; [exact I|constructor].
          -- destruct (nt_st s j); try (destruct (j =? k)); injection ST as <- <- <-; try apply PROG; apply BR; exact I.
          -- destruct (nt_st s k); try discriminate; injection ST as <- <- <-; [apply BR; exact I|apply PROG].
          -- destruct (nt_st s k); try discriminate; injection ST as <- <- <-; [|apply PROG]. right. exists [], [NClr k], p. split; auto. right. exists k. split; auto.
        * injection E as -> ->. cbn [nstep] in ST. destruct (nt_kids s k) as [|j r] eqn:K; injection ST as <- <- <-; [apply BR; exact I|].
          right. exists [NCall (Dispose j)], [NClr k], p. split; [reflexivity|]. right. exists k. split; [reflexivity|]. constructor; [|constructor]. cbn.
          destruct (j_kids _ _ H2 k j) as (A & N); [rewrite K; now left|]. exists j. repeat split; auto. constructor.
      + cbn [app] in E. injection E as -> ->.
        assert (Z : exists P : nat -> Prop, Forall (disp P) (d :: D) /\ (forall j i, P j -> In (Add j i) cs -> P i) /\ forall D', Forall (disp P) D' -> shape (D' ++ H ++ map NCall p)).
        { destruct X as [(-> & F)|(k & -> & F)].
          - exists (fun _ => True). split; auto. split; auto. intros D' F'. right. exists D', [], p. split; auto.
          - exists (under k). split; auto. split; [intros; eapply under_more; eauto|]. intros D' F'. right. exists D', [NClr k], p. split; auto. right. eauto. }
        destruct Z as (P & F & UP & MK). inversion F as [|? ? PD FD]; subst. rewrite app_assoc. destruct d as [[k|k j|k j|k]|k j|k j|k j|k|k|k]; cbn in PD; try easy; cbn [nstep] in ST.
        * destruct (nt_st s k); try discriminate; injection ST as <- <- <-; cbn [app]; [apply (MK (NKids k :: D)); now constructor|now apply MK].
        * destruct (nt_kids s k) as [|j r] eqn:K; injection ST as <- <- <-; cbn [app]; [now apply MK|]. apply (MK (NCall (Dispose j) :: NKids k :: D)). constructor; [|now constructor]. cbn.
          destruct (j_kids _ _ H2 k j) as (A & N); [rewrite K; now left|]. eapply UP; eauto.
  Qed.
  Lemma reach_shape : forall tr c, reach tr c -> Forall shape (snd c).
  Proof.
    intros tr c E. remember (n_init progs) as c0 eqn:Q. induction E as [c|c tr c1 ls c2 E IH G]; subst.
    - cbn. apply Forall_forall. intros t I. apply in_map_iff in I. destruct I as (p & <- & _). right. exists [], [], p. split; auto.
    - specialize (IH eq_refl). pose proof (reach_all _ _ E) as (_ & H2 & _). inversion G as [s ts1 it rest ts2 s' its ls' ST]; subst. cbn [fst snd] in *.
      apply Forall_app in IH. destruct IH as (F1 & F2). inversion F2 as [|? ? S1 F3]; subst. apply Forall_app. split; auto. constructor; auto.
      eapply shape_step; eauto. rewrite concat_app. apply in_or_app. right. now left.
  Qed.
  Definition cleared : list nat := flat_map (fun c => match c with Clear k => [k] | _ => [] end) cs.
  Lemma in_cleared : forall k, In k cleared <-> In (Clear k) cs.
  Proof.
    intro k. unfold cleared. rewrite in_flat_map. split.
    - intros ([i|i j|i j|i] & I & J); try easy. destruct J as [->|[]]. auto.
    - intro I. exists (Clear k). split; auto. now left.
  Qed.
  Lemma stuck_on : forall s it, nstep s it = None -> exists k, nt_st s k = CEdit /\ (forall P, disp P it -> P k).
  Proof.
    intros s it N. destruct it as [[k|k j|k j|k]|k j|k j|k j|k|k|k]; cbn [nstep] in N; try discriminate.
    - destruct (nt_st s k) eqn:Q; try discriminate. exists k. split; auto.
    - destruct (nt_st s j); try (destruct (j =? k)); discriminate.
    - destruct (nt_st s k) eqn:Q; try discriminate. exists k. split; auto. easy.
    - destruct (nt_st s k) eqn:Q; try discriminate. exists k. split; auto. easy.
    - destruct (nt_st s k) eqn:Q; try discriminate. exists k. split; auto. easy.
    - destruct (nt_kids s k); discriminate.
    - destruct (nt_kids s k); discriminate.
  Qed.
  Section Progress.
    Hypothesis SAFE : forall k m, In (Clear k) cs -> In (Add k m) cs -> m <> k -> ~ leads cs m k.
    Variables (s : net) (ts : list (list nitem)) (tr : list nat).
    Hypothesis R : reach tr (s, ts).
    Definition can_go : Prop := exists ts1 it rest ts2, ts = ts1 ++ (it :: rest) :: ts2 /\ nstep s it <> None.
    Lemma go : forall it rest, In (it :: rest) ts -> nstep s it <> None -> can_go.
    Proof. intros it rest I N. apply in_split in I. destruct I as (a & b & ->). exists a, it, rest, b. auto. Qed.
    Lemma find : forall n V k, NoDup V -> incl V cleared -> (forall v, In v V -> under v k) -> length cleared - length V <= n -> nt_st s k = CEdit -> can_go.
    Proof.
      pose proof (reach_all _ _ R) as (H1 & H2 & _). pose proof (reach_shape _ _ R) as SH. cbn [fst snd] in *. rewrite Forall_forall in SH.
      induction n as [|n IH]; intros V k ND INC UN LEN ED.
      all: assert (X : exists x, In x (concat ts) /\ holds k x = true) by
        (pose proof (i_hold _ _ _ H1 k) as C; rewrite ED in C; destruct (filter (holds k) (concat ts)) as [|x r] eqn:Q; [unfold count in C; now rewrite Q in C|]; exists x; apply filter_In; rewrite Q; now left).
      all: destruct X as (x & IX & HX); apply in_concat in IX; destruct IX as (t & IT & IX).
      all: destruct (SH t IT) as [(y & p & -> & B)|(D & H & p & -> & Y)];
        [apply (go y (map NCall p) IT); destruct IX as [->|IX]; [destruct x; cbn in HX; try easy; discriminate|apply in_map_iff in IX; destruct IX as (c & <- & _); discriminate]|].
      all: assert (Z : H = [NClr k] /\ Forall (disp (under k)) D) by
        (apply in_app_or in IX; destruct IX as [IX|IX];
         [exfalso; destruct Y as [(_ & F)|(k' & _ & F)]; rewrite Forall_forall in F; specialize (F x IX); destruct x as [[]| | | | | |]; cbn in F, HX; easy|];
         apply in_app_or in IX; destruct IX as [IX|IX]; [|apply in_map_iff in IX; destruct IX as (c & <- & _); discriminate];
         destruct Y as [(-> & _)|(k' & -> & F)]; [easy|]; destruct IX as [<-|[]]; cbn in HX; apply Nat.eqb_eq in HX; subst k'; auto).
      all: destruct Z as (-> & F); assert (CK : In k cleared) by
        (apply in_cleared; apply (j_clr _ _ H2); apply in_concat; exists (D ++ [NClr k] ++ map NCall p); split; auto; apply in_or_app; right; now left).
      all: assert (NV : ~ In k V) by (intro I; destruct (UN k I) as (m & A & N & LD); apply (SAFE k m); auto; now apply in_cleared).
      all: assert (ND' : NoDup (k :: V)) by (now constructor).
      all: assert (INC' : incl (k :: V) cleared) by (intros z [<-|I]; auto).
      all: pose proof (NoDup_incl_length ND' INC') as LL; cbn [length] in LL.
      { lia. }
      destruct D as [|d D]; [apply (go (NClr k) (map NCall p) IT); cbn [nstep]; destruct (nt_kids s k); discriminate|].
      destruct (nstep s d) as [q|] eqn:Q; [apply (go d _ IT); rewrite Q; discriminate|]. destruct (stuck_on _ _ Q) as (j & EJ & UJ). inversion F as [|? ? FD _]; subst. specialize (UJ _ FD).
      apply (IH (k :: V) j); auto; [|cbn [length]; lia]. intros v [<-|I]; auto. destruct (UN v I) as (m & A & N & LD). destruct UJ as (m' & A' & _ & LD'). exists m. repeat split; auto.
      eapply leads_trans; [exact LD|]. eapply leads_on; eauto.
    Qed.
    Lemma progress : ~ gfinished (s, ts) -> can_go.
    Proof.
      intro NF. assert (X : exists it rest, In (it :: rest) ts).
      { clear R. unfold gfinished in NF. cbn [snd] in NF. induction ts as [|[|it rest] l IH]; [exfalso; apply NF; easy| |exists it, rest; now left].
        destruct IH as (it & rest & I); [|exists it, rest; now right]. intro G. apply NF. intros t [<-|I]; auto. }
      destruct X as (it & rest & I). destruct (nstep s it) as [q|] eqn:Q; [apply (go it rest I); rewrite Q; discriminate|].
      destruct (stuck_on _ _ Q) as (k & E & _). apply (find (length cleared) [] k); auto; [constructor|easy|easy|cbn; lia].
    Qed.
  End Progress.

  (** ** It ends *)
  Definition ids_of (c : call) : list nat := match c with Dispose k | Clear k => [k] | Add k j | Remove k j => [k; j] end.
  Definition U : list nat := nodup Nat.eq_dec (flat_map ids_of cs).
  Lemma in_U : forall k c, In c cs -> In k (ids_of c) -> In k U.
  Proof. intros k c I J. apply nodup_In. apply in_flat_map. eauto. Qed.
  Lemma leads_U : forall i j, leads cs i j -> In i U -> In j U.
  Proof. induction 1 as [i|i k j A L IH]; auto. intros _. apply IH. apply (in_U _ _ A). cbn. auto. Qed.
  Lemma reason_U : forall j, reason cs j -> In j U.
  Proof. intros j [(i & D & L)|(i & k & _ & A & L)]; eapply leads_U; eauto; [apply (in_U _ _ D)|apply (in_U _ _ A)]; cbn; auto. Qed.
  Definition weight (x : nitem) : nat :=
    match x with NCall (Dispose _) => 1 | NKids _ => 2 | NClr _ => 2 | NCall (Clear _) => 3 | NCall (Add _ _) => 10 | NAddCas _ _ => 9 | NPush _ _ => 8 | NCall (Remove _ _) => 4 | NErase _ _ => 3 | NStore _ => 1 end.
  Definition node_cost (s : net) (k : nat) : nat := 4 * length (nt_kids s k) + match nt_st s k with CDisposed => 0 | _ => 2 end.
  Definition measure (s : net) (l : list nitem) : nat := list_sum (map (node_cost s) U) + list_sum (map weight l).
  Lemma sum_put : forall (f g : nat -> nat) k l, NoDup l -> In k l -> (forall i, i <> k -> g i = f i) -> list_sum (map g l) + f k = list_sum (map f l) + g k.
  Proof.
    intros f g k. induction l as [|x l IH]; intros ND I H; [easy|]. inversion ND as [|? ? NI ND1]; subst. cbn [map list_sum fold_right]. change (fold_right plus 0 (map ?h l)) with (list_sum (map h l)).
    fold (list_sum (map g l)). fold (list_sum (map f l)). destruct I as [->|I].
    - replace (list_sum (map g l)) with (list_sum (map f l)); [lia|]. f_equal. apply map_ext_in. intros y J. symmetry. apply H. intros ->. contradiction.
    - specialize (IH ND1 I H). rewrite (H x) by (intros ->; contradiction). lia.
  Qed.
  Lemma node_put : forall s s' k, In k U -> (forall i, i <> k -> node_cost s' i = node_cost s i) -> forall a b, node_cost s' k + a <= node_cost s k + b -> list_sum (map (node_cost s') U) + a <= list_sum (map (node_cost s) U) + b.
  Proof. intros s s' k I H a b L. pose proof (sum_put (node_cost s) (node_cost s') k U (NoDup_nodup _ _) I H). lia. Qed.
  Lemma measure_step : forall s it l s' its ls tr, inv1 s (it :: l) tr -> inv2 s (it :: l) -> nstep s it = Some (s', its, ls) -> measure s' (its ++ l) < measure s (it :: l).
  Proof.
    intros s it l s' its ls tr H1 H2 ST. unfold measure. rewrite map_app, list_sum_app. cbn [map list_sum fold_right]. fold (list_sum (map weight l)).
    assert (G : list_sum (map (node_cost s') U) + (list_sum (map weight its) + 1) <= list_sum (map (node_cost s) U) + weight it); [|cbn [list_sum fold_right] in *; lia].
    assert (CALL : forall c k, it = NCall c -> In k (ids_of c) -> In k U).
    { intros c k -> I. pose proof (j_call _ _ H2 c (or_introl eq_refl)) as X. destruct c; try (eapply in_U; eauto; fail). destruct I as [<-|[]]. now apply reason_U. }
    assert (ADD : forall k j, it = NAddCas k j \/ it = NPush k j -> In k U).
    { intros k j E. destruct (j_add _ _ H2 k j) as (A & _); [destruct E as [->| ->]; [left|right]; now left|]. eapply in_U; eauto. cbn. auto. }
    assert (KID : forall k j r, nt_kids s k = j :: r -> In k U).
    { intros k j r E. destruct (j_kids _ _ H2 k j) as (A & _); [rewrite E; now left|]. eapply in_U; eauto. cbn. auto. }
    assert (ST1 : forall k v, nt_st s k <> CDisposed -> v <> CDisposed -> forall i, node_cost (Net (put k v (nt_st s)) (nt_kids s)) i = node_cost s i).
    { intros k v N1 N2 i. unfold node_cost. cbn [nt_st nt_kids]. destruct (put_case _ k v (nt_st s) i) as [(-> & ->)|(_ & ->)]; auto. destruct v, (nt_st s k); auto; congruence. }
    assert (SUM : forall s1, (forall i, node_cost s1 i = node_cost s i) -> list_sum (map (node_cost s1) U) = list_sum (map (node_cost s) U)) by (intros s1 E; f_equal; apply map_ext; auto).
    assert (KP : forall k r, forall i, i <> k -> node_cost (Net (nt_st s) (put k r (nt_kids s))) i = node_cost s i) by (intros k r i N; unfold node_cost; cbn [nt_st nt_kids]; now rewrite put_ne).
    destruct it as [[k|k j|k j|k]|k j|k j|k j|k|k|k]; cbn [nstep] in ST; cbn [weight].
    - destruct (nt_st s k) eqn:Q; try discriminate; injection ST as <- <- <-; [|cbn; lia].
      apply (node_put s _ k); [apply (CALL (Dispose k)); cbn; auto| |].
      + intros i N. unfold node_cost. cbn [nt_st nt_kids]. now rewrite put_ne.
      + unfold node_cost. cbn [nt_st nt_kids map weight list_sum fold_right]. rewrite put_eq, Q. lia.
    - destruct (nt_st s j); try (destruct (j =? k)); injection ST as <- <- <-; cbn; lia.
    - destruct (nt_st s k) eqn:Q; try discriminate; injection ST as <- <- <-; [rewrite SUM by (apply ST1; congruence)|]; cbn; lia.
    - destruct (nt_st s k) eqn:Q; try discriminate; injection ST as <- <- <-; [rewrite SUM by (apply ST1; congruence)|]; cbn; lia.
    - destruct (nt_st s k) eqn:Q; try discriminate; injection ST as <- <- <-; [rewrite SUM by (apply ST1; congruence)|]; cbn; lia.
    - injection ST as <- <- <-. apply (node_put s _ k); [apply (ADD k j); auto|apply KP|]. unfold node_cost. cbn [nt_st nt_kids map weight list_sum fold_right]. rewrite put_eq, app_length. cbn [length]. lia.
    - injection ST as <- <- <-. apply (node_put s _ k); [eapply in_U; [apply (j_rem _ _ H2 k j); now left|cbn; auto]|apply KP|]. unfold node_cost. cbn [nt_st nt_kids map weight list_sum fold_right]. rewrite put_eq.
      assert (FL : length (filter (fun x => negb (x =? j)) (nt_kids s k)) <= length (nt_kids s k)) by (clear; induction (nt_kids s k) as [|y r IH]; cbn; auto; destruct (negb _); cbn; lia). lia.
    - injection ST as <- <- <-. destruct (nt_st s k) eqn:Q; try (rewrite SUM by (apply ST1; congruence); cbn; lia). exfalso.
      pose proof (i_hold _ _ _ H1 k) as C. rewrite Q, count_cons in C. cbn [holds] in C. rewrite Nat.eqb_refl in C. discriminate.
    - destruct (nt_kids s k) as [|j r] eqn:K; injection ST as <- <- <-; [cbn; lia|]. apply (node_put s _ k); [eauto|apply KP|]. unfold node_cost. cbn [nt_st nt_kids map weight list_sum fold_right]. rewrite put_eq, K. cbn [length]. lia.
    - destruct (nt_kids s k) as [|j r] eqn:K; injection ST as <- <- <-; [cbn; lia|]. apply (node_put s _ k); [eauto|apply KP|]. unfold node_cost. cbn [nt_st nt_kids map weight list_sum fold_right]. rewrite put_eq, K. cbn [length]. lia.
  Qed.
  Lemma measure_perm : forall s l l', Permutation l l' -> measure s l = measure s l'.
  Proof. intros s l l' P. unfold measure. f_equal. induction P as [|x a b P IH|x y a|a b c P1 IH1 P2 IH2]; cbn [map list_sum fold_right]; unfold list_sum in *; try lia. Qed.
  Lemma runs_reach : forall n c, nruns (n_init progs) n c -> exists tr, reach tr c.
  Proof.
    intros n c E. remember (n_init progs) as c0 eqn:Q. induction E as [c|c n c1 ls c2 E IH G]; subst; [eexists; constructor|]. destruct (IH eq_refl) as (tr & R). eexists. econstructor; eauto.
  Qed.
  Lemma measure_runs : forall n c, nruns (n_init progs) n c -> n + measure (fst c) (concat (snd c)) <= measure (fst (n_init progs)) (concat (snd (n_init progs))).
  Proof.
    intros n c E. remember (n_init progs) as c0 eqn:Q. induction E as [c|c n c1 ls c2 E IH G]; subst; [lia|]. specialize (IH eq_refl).
    destruct (runs_reach _ _ E) as (tr & R). apply reach_all in R. destruct R as (H1 & H2 & _). inversion G as [s ts1 it rest ts2 s' its ls' ST]; subst. cbn [fst snd] in *.
    assert (P : Permutation (concat (ts1 ++ (it :: rest) :: ts2)) (it :: rest ++ concat ts1 ++ concat ts2)) by (rewrite concat_app; cbn [concat app]; rewrite <- Permutation_middle; constructor; rewrite !app_assoc; apply Permutation_app_tail; apply Permutation_app_comm).
    assert (P' : Permutation (concat (ts1 ++ (its ++ rest) :: ts2)) (its ++ rest ++ concat ts1 ++ concat ts2)) by (rewrite concat_app; cbn [concat]; rewrite <- !app_assoc, Permutation_app_swap_app; apply Permutation_app_head; rewrite Permutation_app_swap_app; reflexivity).
    rewrite (measure_perm _ _ _ P') . rewrite (measure_perm _ _ _ P) in IH.
    pose proof (measure_step s it (rest ++ concat ts1 ++ concat ts2) s' its ls tr (inv1_perm _ _ _ _ P H1) (inv2_perm _ _ _ P H2) ST). lia.
  Qed.

  (** ** The results *)
  Lemma put_in : forall tr c, reach tr c -> gfinished c -> forall k j, In (Add k j) cs -> ~ In (Remove k j) cs -> In k tr -> In j tr.
  Proof.
    intros tr c R F k j A NR I. destruct (reach_all _ _ R) as (H1 & H2 & K). rewrite (gfinished_concat _ F) in *.
    destruct (Nat.eq_dec j k) as [->|N]; auto. destruct (K k j A N NR) as [X|[X|[X|[X|[X|X]]]]]; try easy.
    apply (i_tr _ _ _ H1) in I. destruct (i_kids _ _ _ H1 k I) as [Q|Q]; [|easy]. now rewrite Q in X.
  Qed.
  Lemma asked : forall tr c, reach tr c -> forall i, In (Dispose i) cs -> In (NCall (Dispose i)) (concat (snd c)) \/ In i tr.
  Proof.
    intros tr c E i D.
    assert (X : inv1 (fst c) (concat (snd c)) tr /\ (In (NCall (Dispose i)) (concat (snd c)) \/ In i tr)); [|apply X].
    eapply (gexec_inv nstep (fun s l t => inv1 s l t /\ (In (NCall (Dispose i)) l \/ In i t))); [| |exact E|].
    - intros s l l' t P (A & B). split; [eapply inv1_perm; eauto|]. destruct B as [B|B]; auto. left. eapply Permutation_in; eauto.
    - intros s it l t s' its ls (A & B) ST. split; [eapply inv1_step; eauto|]. rewrite !in_app_iff. destruct B as [[->|B]|B]; auto. cbn [nstep] in ST. destruct (nt_st s i) eqn:Q; try discriminate; injection ST as <- <- <-; cbn; auto.
      right. left. now apply (i_tr _ _ _ A).
    - split; [apply inv1_init|]. left. rewrite init_items. now apply in_map.
  Qed.
End Net.
