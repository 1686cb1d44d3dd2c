(** Proofs for C88. *)
From Coq Require Import Permutation.
From Verif Require Import Base MultiSpec Concur ReconSpec ReconModel.

Section Traces.
  Context {V : Type}.
  Implicit Types tr ls : list (nlab V).
  Lemma shown_app : forall k tr ls, shown k (tr ++ ls) = shown k tr ++ shown k ls.
  Proof. induction tr as [|x tr IH]; intro ls; auto. destruct x as [j|j|j|j|j e|j]; cbn; rewrite ?IH; auto. now destruct (j =? k). Qed.
  Definition is_off (k : nat) (x : nlab V) : bool := match x with NOff j => j =? k | _ => false end.
  Lemma after_app : forall k tr b ls, after_off k b (tr ++ ls) = after_off k b tr ++ after_off k (existsb (is_off k) tr || b) ls.
  Proof.
    induction tr as [|x tr IH]; intros b ls; auto. destruct x as [j|j|j|j|j e|j]; cbn; rewrite ?IH; auto.
    - now destruct (j =? k), (existsb (is_off k) tr), b.
    - now destruct ((j =? k) && b).
  Qed.
  Lemma alt_app : forall k tr b ls, alternates k b tr -> alternates k (busy_after k b tr) ls -> alternates k b (tr ++ ls).
  Proof.
    induction tr as [|x tr IH]; intros b ls A B; auto. destruct x as [j|j|j|j|j e|j]; cbn in *; auto.
    - destruct (j =? k); [destruct A|]; auto.
    - destruct (j =? k); [destruct A|]; auto.
  Qed.
  Lemma busy_app : forall k tr b ls, busy_after k b (tr ++ ls) = busy_after k (busy_after k b tr) ls.
  Proof. induction tr as [|x tr IH]; intros b ls; auto. destruct x as [j|j|j|j|j e|j]; cbn; auto. Qed.
  Lemma frees_app : forall k tr ls, frees k (tr ++ ls) = frees k tr + frees k ls.
  Proof. intros. unfold frees. now rewrite filter_app, app_length. Qed.
  Lemma off_in : forall k tr, existsb (is_off k) tr = true <-> In (NOff k) tr.
  Proof.
    intros. rewrite existsb_exists. split.
    - intros (x & I & E). destruct x as [j|j|j|j|j e|j]; cbn in E; try discriminate. apply Nat.eqb_eq in E. now subst.
    - intro I. exists (NOff k). cbn. now rewrite Nat.eqb_refl.
  Qed.
  Lemma one_app : forall tr ls, one_connection tr -> (forall k, ~ In (NOn k) ls) -> one_connection (tr ++ ls).
  Proof.
    intros tr ls O N a k b E. apply app_eq_app in E as (l & [(E1 & E2)|(E1 & E2)]).
    - destruct l as [|x l]; cbn in *.
      + destruct (N k). rewrite <- E2. now left.
      + injection E2 as <- E2. apply (O a k l). exact E1.
    - destruct (N k). rewrite E2. apply in_or_app. right. now left.
  Qed.
  Lemma one_snoc : forall tr k, one_connection tr -> ~ In (NOn k) tr -> (forall j, In (NOn j) tr -> In (NOff j) tr) -> one_connection (tr ++ [NOn k]).
  Proof.
    intros tr k O N A a j b E. apply app_eq_app in E as (l & [(E1 & E2)|(E1 & E2)]).
    - destruct l as [|x l]; cbn in *.
      + inversion E2. subst. rewrite app_nil_r in *. auto.
      + injection E2 as <- E2. apply (O a j l). exact E1.
    - destruct l as [|x l]; cbn in *; [|destruct l; discriminate E2].
      inversion E2. subst. rewrite app_nil_r in *. auto.
  Qed.
  (** Labels of a disposal. *)
  Definition quiet (ls : list (nlab V)) : Prop := forall x, In x ls -> (exists j, x = NOff j) \/ exists j, x = NFree j.
  Lemma quiet_shown : forall k ls, quiet ls -> shown k ls = [].
  Proof. induction ls as [|x ls IH]; intro Q; auto. destruct (Q x (or_introl eq_refl)) as [(j & ->)|(j & ->)]; cbn; apply IH; intros y I; apply Q; now right. Qed.
  Lemma quiet_after : forall k ls b, quiet ls -> after_off k b ls = [].
  Proof. induction ls as [|x ls IH]; intros b Q; auto. destruct (Q x (or_introl eq_refl)) as [(j & ->)|(j & ->)]; cbn; apply IH; intros y I; apply Q; now right. Qed.
  Lemma quiet_alt : forall k ls b, quiet ls -> alternates k b ls.
  Proof. induction ls as [|x ls IH]; intros b Q; cbn; auto. destruct (Q x (or_introl eq_refl)) as [(j & ->)|(j & ->)]; apply IH; intros y I; apply Q; now right. Qed.
  Lemma quiet_busy : forall k ls b, quiet ls -> busy_after k b ls = b.
  Proof. induction ls as [|x ls IH]; intros b Q; cbn; auto. destruct (Q x (or_introl eq_refl)) as [(j & ->)|(j & ->)]; apply IH; intros y I; apply Q; now right. Qed.
  Lemma quiet_on : forall k ls, quiet ls -> ~ In (NOn k) ls.
  Proof. intros k ls Q I. destruct (Q _ I) as [(j & E)|(j & E)]; discriminate. Qed.
  Lemma quiet_keep : forall k ls, quiet ls -> ~ In (NKeep k) ls.
  Proof. intros k ls Q I. destruct (Q _ I) as [(j & E)|(j & E)]; discriminate. Qed.
  Lemma quiet_free : forall k s, quiet (lfree (V:=V) k s).
  Proof. intros k s x. unfold lfree. destruct (n_freed s k); cbn; intuition eauto. Qed.
End Traces.

Section Proof.
  Context {V : Type}.
  Variable script : nat -> list (ev V).
  Implicit Types (s : nst V) (l : list (nitem V)) (tr : list (nlab V)).

  Lemma set_same : forall {A} (f : nat -> A) k x, set f k x k = x.
  Proof. intros. unfold set. now rewrite Nat.eqb_refl. Qed.
  Lemma set_other : forall {A} (f : nat -> A) k j x, j <> k -> set f k x j = f j.
  Proof. intros. unfold set. now destruct (Nat.eqb_spec j k). Qed.
  Lemma set_true : forall f k j, set f k true j = true <-> j = k \/ f j = true.
  Proof. intros. unfold set. destruct (Nat.eqb_spec j k); intuition. Qed.

  Lemma frees_lfree : forall k j s, frees k (lfree j s) = if (j =? k) && negb (n_freed s j) then 1 else 0.
  Proof. intros. unfold lfree, frees. destruct (n_freed s j); cbn; [now rewrite andb_false_r|]. now destruct (j =? k). Qed.

  (** Fields other than n_freed. *)
  Definition same (s s' : nst V) : Prop :=
    n_made s' = n_made s /\ n_cur s' = n_cur s /\ n_on s' = n_on s /\ n_off s' = n_off s /\ n_held s' = n_held s /\
    n_kept s' = n_kept s /\ n_comp s' = n_comp s /\ n_disp s' = n_disp s /\ n_src s' = n_src s.
  Lemma all_free_acc : forall (kl : list nat) s acc,
    let r := fold_left (fun a k => (free k (fst a), snd a ++ lfree k (fst a))) kl (s, acc) in
    same s (fst r) /\ (forall k, n_freed (fst r) k = true <-> n_freed s k = true \/ In k kl) /\
    (forall k, frees k (snd r) + (if n_freed s k then 1 else 0) = frees k acc + if n_freed (fst r) k then 1 else 0) /\
    (quiet acc -> quiet (snd r)) /\ (forall k, In (NOff k) (snd r) <-> In (NOff k) acc).
  Proof.
    induction kl as [|x kl IH]; intros s acc; cbn [fold_left fst snd].
    - cbn. unfold same. intuition.
    - specialize (IH (free x s) (acc ++ lfree x s)). cbn zeta in IH. destruct IH as (A & B & C & D & E).
      split; [exact A|]. split; [|split; [|split]].
      + intro k. rewrite B. cbn [free n_freed]. rewrite set_true. cbn. intuition.
      + intro k. specialize (C k). rewrite frees_app, frees_lfree in C. cbn [free n_freed] in C.
        unfold set in C. rewrite (Nat.eqb_sym x k) in C.
        destruct (k =? x) eqn:K; cbn in C; [apply Nat.eqb_eq in K; subst|]; [destruct (n_freed s x)|]; cbn in *; lia.
      + intro Q. apply D. intros y I. apply in_app_iff in I as [I|I]; auto. now apply (quiet_free x s).
      + intro k. rewrite E, in_app_iff. split; auto. intros [H|H]; auto. unfold lfree in H. destruct (n_freed s x); cbn in H; intuition discriminate.
  Qed.
  Lemma all_free_ok : forall kl s s' ls, all_free kl s = (s', ls) ->
    same s s' /\ (forall k, n_freed s' k = true <-> n_freed s k = true \/ In k kl) /\
    (forall k, frees k ls + (if n_freed s k then 1 else 0) = if n_freed s' k then 1 else 0) /\ quiet ls /\ forall k, ~ In (NOff k) ls.
  Proof.
    intros kl s s' ls E. unfold all_free in E. pose proof (all_free_acc kl s []) as A. rewrite E in A. cbn in A.
    destruct A as (A & B & C & D & F). repeat split; try apply A; try apply B; auto.
    - apply D. intros x [].
    - intros k I. now apply F in I.
  Qed.

  Definition inv_a s l tr : Prop :=
    (forall k, n_off s k = existsb (is_off k) tr) /\
    (forall k, n_on s k = true <-> In (NOn k) tr) /\
    (forall k, k < n_made s -> n_off s k = false -> n_cur s = Some k) /\
    (forall k, n_on s k = true -> k < n_made s) /\
    (forall k, In (NSubs k) l -> k < n_made s /\ n_on s k = false) /\
    (forall k, count (fun it => match it with NSubs j => j =? k | _ => false end) l <= 1) /\
    one_connection tr.
  Ltac seven := split; [|split; [|split; [|split; [|split; [|split]]]]].
  Ltac inapp H := rewrite ?in_app_iff in H; cbn [In] in H.

  Lemma a_perm : forall s l l' tr, Permutation l l' -> inv_a s l tr -> inv_a s l' tr.
  Proof.
    intros s l l' tr P (A & B & C & D & E & F & G). seven; auto.
    - intros k H. apply E. eapply Permutation_in; [symmetry|]; eauto.
    - intro k. rewrite <- (count_perm _ _ _ P). apply F.
  Qed.
  (** Steps that disposes nothing or some connections, and leave the rest of what inv_a is about. *)
  Lemma a_keep : forall s s' it l its tr ls, inv_a s (it :: l) tr ->
    (forall k, n_off s' k = existsb (is_off k) (tr ++ ls)) -> n_on s' = n_on s -> n_made s' = n_made s -> n_cur s' = n_cur s ->
    (forall k, In (NSubs k) its -> False) -> (forall k, ~ In (NOn k) ls) -> (forall k, it <> NSubs k) -> inv_a s' (its ++ l) (tr ++ ls).
  Proof.
    intros s s' it l its tr ls (A & B & C & D & E & F & G) HO HN HM HC NI NL NIT. unfold inv_a. rewrite HN, HM, HC.
    seven; auto.
    - intro k. split; intro H; [apply in_or_app; left; now apply B|]. inapp H. destruct H as [H|H]; [now apply B|destruct (NL _ H)].
    - intros k K O. apply C; auto. rewrite HO, existsb_app in O. rewrite A. now destruct (existsb (is_off k) tr).
    - intros k H. inapp H. destruct H as [H|H]; [destruct (NI _ H)|]. apply E. now right.
    - intro k. specialize (F k). rewrite count_app. rewrite count_cons in F.
      rewrite (count_zero_of _ its); [lia|]. intros [| |j| | | | | | | | |] I; auto. destruct (NI _ I).
    - now apply one_app.
  Qed.
  Lemma off_labels : forall k s s' ls, off k s = (s', ls) ->
    n_off s' = (if n_off s k then n_off s else set (n_off s) k true) /\ quiet ls /\
    (forall j, existsb (is_off j) ls = negb (n_off s k) && (k =? j)) /\
    n_made s' = n_made s /\ n_cur s' = n_cur s /\ n_on s' = n_on s /\ n_held s' = n_held s /\ n_kept s' = n_kept s /\
    n_comp s' = n_comp s /\ n_disp s' = n_disp s /\ n_src s' = n_src s /\
    n_freed s' = (if negb (n_off s k) && n_held s k then set (n_freed s) k true else n_freed s) /\
    (forall j, frees j ls = if negb (n_off s k) && n_held s k then frees j (lfree k s) else 0).
  Proof.
    intros k s s' ls E. unfold off in E. destruct (n_off s k).
    - injection E as <- <-. repeat split; auto. intros x [].
    - assert (QF : forall j, existsb (is_off j) (lfree (V:=V) k s) = false) by (intro j; unfold lfree; now destruct (n_freed s k)).
      destruct (n_held s k); injection E as <- <-; cbn [free n_off n_made n_cur n_on n_held n_kept n_comp n_disp n_src n_freed negb andb]; repeat split; auto.
      + intros x [<-|I]; eauto. now apply (quiet_free k s).
      + intro j. cbn. now rewrite QF, orb_false_r.
      + intros x [<-|[]]; eauto.
      + intro j. cbn. now rewrite orb_false_r.
  Qed.
  Lemma off_flag : forall k s s' ls tr, off k s = (s', ls) -> (forall j, n_off s j = existsb (is_off j) tr) ->
    forall j, n_off s' j = existsb (is_off j) (tr ++ ls).
  Proof.
    intros k s s' ls tr E A j. destruct (off_labels k s s' ls E) as (O & _ & L & _). rewrite existsb_app, O, L, <- A.
    destruct (n_off s k) eqn:K; cbn; [now rewrite orb_false_r|]. unfold set. rewrite (Nat.eqb_sym j k).
    destruct (k =? j); [now rewrite orb_true_r|now rewrite orb_false_r].
  Qed.
  Ltac noff := let j := fresh in intro j; cbn [n_off free]; rewrite existsb_app; cbn; rewrite ?orb_false_r; auto.
  Ltac nots := intros; cbn in *; try discriminate; intuition discriminate.

  Lemma lfree_off : forall j k s, existsb (is_off j) (lfree (V:=V) k s) = false.
  Proof. intros. unfold lfree. now destruct (n_freed s k). Qed.
  Lemma lfree_on : forall j k s, ~ In (NOn j) (lfree (V:=V) k s).
  Proof. intros j k s. apply quiet_on, quiet_free. Qed.

  Lemma a_step : forall s it l tr s' its ls, inv_a s (it :: l) tr -> nstep s it = Some (s', its, ls) -> inv_a s' (its ++ l) (tr ++ ls).
  Proof.
    intros s it l tr s' its ls I St. pose proof I as (A & B & C & D & E & F & G).
    destruct it as [| |k|k|k|k|k|k|k e|k e|k|k]; cbn [nstep] in St.
    - injection St as <- <- <-. eapply a_keep; eauto; try (destruct (n_disp s); nots). noff.
    - destruct (match n_cur s with Some k => n_off s k | None => true end) eqn:Q; injection St as <- <- <-.
      + rewrite app_nil_r. unfold inv_a. cbn [n_off n_on n_made n_cur app]. seven; auto.
        * intros k K O. destruct (Nat.eq_dec k (n_made s)) as [->|N]; auto.
          rewrite (C k) in Q; [congruence|lia|auto].
        * intros k O. specialize (D k O). lia.
        * intros k [H|H]; [injection H as <-|destruct (E k (or_intror H)); split; auto; lia].
          split; auto. destruct (n_on s (n_made s)) eqn:ON; auto. specialize (D _ ON). lia.
        * intro k. rewrite count_cons. specialize (F k). rewrite count_cons in F. destruct (Nat.eqb_spec (n_made s) k) as [<-|N]; [|lia].
          rewrite count_zero_of; [lia|]. intros [| |j| | | | | | | | |] IN; auto.
          destruct (Nat.eqb_spec j (n_made s)) as [->|]; auto. destruct (E _ (or_intror IN)). lia.
      + eapply a_keep; eauto; try nots. noff.
    - destruct (n_off s k) eqn:O; injection St as <- <- <-.
      + rewrite app_nil_r. cbn [app]. unfold inv_a. seven; auto.
        * intros j H. apply E. now right.
        * intro j. specialize (F j). rewrite count_cons in F. lia.
      + destruct (E k (or_introl eq_refl)) as (K & ON). unfold inv_a. cbn [n_off n_on n_made n_cur app].
        seven; auto.
        * intro j. rewrite existsb_app. cbn. now rewrite orb_false_r.
        * intro j. rewrite set_true. split; [intros [->|H]; apply in_or_app; [right; now left|left; now apply B]|].
          intro H. inapp H. destruct H as [H|[H|[]]]; [right; now apply B|injection H; auto].
        * intro j. rewrite set_true. intros [->|H]; auto.
        * intros j [H|H]; [discriminate|]. destruct (E j (or_intror H)). split; auto. rewrite set_other; auto.
          intros ->. specialize (F k). rewrite count_cons, Nat.eqb_refl in F.
          pose proof (count_in (fun it => match it with NSubs j => j =? k | _ => false end) l (NSubs k) H) as CI. cbn in CI. rewrite Nat.eqb_refl in CI. specialize (CI eq_refl). lia.
        * intro j. specialize (F j). rewrite count_cons in *. lia.
        * apply one_snoc; auto.
          -- rewrite <- B. congruence.
          -- intros j H. apply B in H. apply off_in. rewrite <- A. destruct (n_off s j) eqn:OJ; auto.
             pose proof (C j (D j H) OJ). pose proof (C k K O). congruence.
    - destruct (n_off s k || n_disp s); injection St as <- <- <-; (eapply a_keep; eauto; try nots).
      + noff. rewrite lfree_off, orb_false_r. auto.
      + intros. apply lfree_on.
      + noff.
    - destruct (n_off s k); injection St as <- <- <-; (eapply a_keep; eauto; try nots).
      + noff. rewrite lfree_off, orb_false_r. auto.
      + intros. apply lfree_on.
      + noff.
    - destruct (n_disp s); injection St as <- <- <-; (eapply a_keep; eauto; try nots).
      + noff. rewrite lfree_off, orb_false_r. auto.
      + intros. apply lfree_on.
      + noff.
    - destruct (k <? n_made s); [|injection St as <- <- <-; eapply a_keep; eauto; try nots; noff].
      destruct (off k s) as [s1 ls1] eqn:EO. injection St as <- <- <-. destruct (off_labels _ _ _ _ EO) as (_ & Q & _ & M & CU & ON & _).
      eapply a_keep; eauto; try nots. + now apply (off_flag _ _ _ _ _ EO). + intros j. now apply quiet_on.
    - destruct (n_on s k); [|discriminate]. destruct (n_src s k) as [|e r]; injection St as <- <- <-; (eapply a_keep; eauto; try nots; try (destruct (n_off s k || n_disp s); nots)); noff.
    - destruct (n_comp s); injection St as <- <- <-; (eapply a_keep; eauto; try nots; try (destruct (is_term e); nots)); noff.
    - injection St as <- <- <-; (eapply a_keep; eauto; try nots; try (destruct (is_term e); nots)); noff.
    - destruct (all_free (n_kept s) s) as [s1 ls1] eqn:EF. injection St as <- <- <-.
      destruct (all_free_ok _ _ _ _ EF) as (SA & _ & _ & Q & NO). destruct SA as (M & CU & ON & OF & _).
      eapply a_keep; eauto; cbn [n_off n_on n_made n_cur]; try nots.
      + intro j. rewrite existsb_app, OF, A. destruct (existsb (is_off j) ls1) eqn:X; [|now rewrite orb_false_r].
        apply off_in in X. destruct (NO _ X).
      + intros j. now apply quiet_on.
    - destruct (off k s) as [s1 ls1] eqn:EO. injection St as <- <- <-. destruct (off_labels _ _ _ _ EO) as (_ & Q & _ & M & CU & ON & _).
      eapply a_keep; eauto; try nots. + now apply (off_flag _ _ _ _ _ EO). + intros j. now apply quiet_on.
  Qed.

  Definition inv_f s l tr : Prop :=
    (forall k, frees k tr = if n_freed s k then 1 else 0) /\
    (forall k, n_freed s k = true -> n_off s k = true \/ n_disp s = true) /\
    (forall k, n_on s k = true -> n_freed s k = true \/ In (NSet k) l \/ In (NAddW k) l \/ (n_held s k = true /\ n_off s k = false)) /\
    (forall k, n_on s k = true -> n_freed s k = true \/ In (NSet k) l \/ In (NAddW k) l \/ In (NAddS k) l \/ (n_disp s = false /\ In k (n_kept s))) /\
    (forall k, In (NKeep k) tr -> n_disp s = true \/ In k (n_kept s)).
  Ltac five := split; [|split; [|split; [|split]]].
  Lemma f_perm : forall s l l' tr, Permutation l l' -> inv_f s l tr -> inv_f s l' tr.
  Proof.
    intros s l l' tr P (A & B & C & D & E). assert (T : forall x, In x l -> In x l') by (intros; eapply Permutation_in; eauto).
    five; auto; intros k H; [destruct (C k H) as [|[|[|]]]|destruct (D k H) as [|[|[|[|]]]]]; auto 8.
  Qed.
  Lemma f_keep : forall s s' it l its tr ls, inv_f s (it :: l) tr ->
    n_on s' = n_on s -> n_off s' = n_off s -> n_held s' = n_held s -> n_freed s' = n_freed s -> n_kept s' = n_kept s -> n_disp s' = n_disp s ->
    (forall k, it <> NSet k) -> (forall k, it <> NAddW k) -> (forall k, it <> NAddS k) ->
    (forall k, frees k ls = 0) -> (forall k, ~ In (NKeep k) ls) -> inv_f s' (its ++ l) (tr ++ ls).
  Proof.
    intros s s' it l its tr ls (A & B & C & D & E) H1 H2 H3 H4 H5 H6 N1 N2 N3 F0 K0. unfold inv_f. rewrite H1, H2, H3, H4, H5, H6. five; auto.
    - intro k. rewrite frees_app, F0, A. lia.
    - intros k H. rewrite !in_app_iff. destruct (C k H) as [|[[X|]|[[X|]|]]]; auto 8; [destruct (N1 _ X)|destruct (N2 _ X)].
    - intros k H. rewrite !in_app_iff. destruct (D k H) as [|[[X|]|[[X|]|[[X|]|]]]]; auto 9; [destruct (N1 _ X)|destruct (N2 _ X)|destruct (N3 _ X)].
    - intros k H. inapp H. destruct H as [H|H]; auto. destruct (K0 _ H).
  Qed.
  Lemma f1_free : forall s tr k, (forall j, frees j tr = if n_freed s j then 1 else 0) ->
    forall j, frees j (tr ++ lfree k s) = if set (n_freed s) k true j then 1 else 0.
  Proof.
    intros s tr k A j. rewrite frees_app, frees_lfree, A. unfold set. rewrite (Nat.eqb_sym k j).
    destruct (Nat.eqb_spec j k) as [->|]; cbn; [|lia]. now destruct (n_freed s k).
  Qed.
  (** Steps that dispose the disposable of source k. *)
  Lemma f_free : forall s k it l its tr, inv_f s (it :: l) tr -> n_off s k = true \/ n_disp s = true ->
    (forall j, In (NSet j) (it :: l) -> j = k \/ In (NSet j) (its ++ l)) -> (forall j, In (NAddW j) (it :: l) -> j = k \/ In (NAddW j) (its ++ l)) ->
    (forall j, In (NAddS j) (it :: l) -> j = k \/ In (NAddS j) (its ++ l)) -> inv_f (free k s) (its ++ l) (tr ++ lfree k s).
  Proof.
    intros s k it l its tr (A & B & C & D & E) O N1 N2 N3. unfold inv_f. cbn [free n_on n_off n_held n_freed n_kept n_disp]. five.
    - now apply f1_free.
    - intros j H. apply set_true in H as [->|H]; auto.
    - intros j H. destruct (C j H) as [X|[X|[X|X]]]; rewrite ?set_true; auto; [destruct (N1 j X)|destruct (N2 j X)]; auto.
    - intros j H. destruct (D j H) as [X|[X|[X|[X|X]]]]; rewrite ?set_true; auto 8; [destruct (N1 j X)|destruct (N2 j X)|destruct (N3 j X)]; auto 8.
    - intros j H. inapp H. destruct H as [H|H]; auto. destruct (quiet_keep j _ (quiet_free k s) H).
  Qed.
  Lemma f_off : forall s k s' ls it l its tr, inv_f s (it :: l) tr -> off k s = (s', ls) ->
    (forall j, it <> NSet j) -> (forall j, it <> NAddW j) -> (forall j, it <> NAddS j) -> inv_f s' (its ++ l) (tr ++ ls).
  Proof.
    intros s k s' ls it l its tr (A & B & C & D & E) EO N1 N2 N3.
    destruct (off_labels _ _ _ _ EO) as (OF & Q & _ & _ & _ & ON & HE & KE & _ & DI & _ & FR & FL).
    assert (OM : forall j, n_off s j = true -> n_off s' j = true) by (intros j H; rewrite OF; destruct (n_off s k); auto; apply set_true; auto).
    assert (FM : forall j, n_freed s j = true -> n_freed s' j = true) by (intros j H; rewrite FR; destruct (negb (n_off s k) && n_held s k); auto; apply set_true; auto).
    unfold inv_f. rewrite ON, HE, KE, DI. five.
    - intro j. rewrite frees_app, FL, FR. destruct (negb (n_off s k) && n_held s k); [|rewrite A; lia].
      rewrite <- frees_app. now apply f1_free.
    - intros j H. rewrite FR in H. destruct (negb (n_off s k) && n_held s k) eqn:X.
      + apply andb_prop in X as (X & _). apply negb_true_iff in X. apply set_true in H as [->|H].
        * left. rewrite OF, X. apply set_same.
        * destruct (B j H); auto.
      + destruct (B j H); auto.
    - intros j H. rewrite !in_app_iff. destruct (C j H) as [|[[X|]|[[X|]|(X & Y)]]]; auto 8; [destruct (N1 _ X)|destruct (N2 _ X)|].
      rewrite OF, FR, X. destruct (n_off s k) eqn:OK; cbn; auto 6. destruct (Nat.eq_dec j k) as [->|N].
      + rewrite X. left. apply set_same.
      + rewrite set_other; auto 6.
    - intros j H. rewrite !in_app_iff. destruct (D j H) as [|[[X|]|[[X|]|[[X|]|]]]]; auto 9; [destruct (N1 _ X)|destruct (N2 _ X)|destruct (N3 _ X)].
    - intros j H. inapp H. destruct H as [H|H]; auto. destruct (quiet_keep j _ Q H).
  Qed.
  Lemma f_step : forall s it l tr s' its ls, inv_f s (it :: l) tr -> nstep s it = Some (s', its, ls) -> inv_f s' (its ++ l) (tr ++ ls).
  Proof.
    intros s it l tr s' its ls I St. pose proof I as (A & B & C & D & E).
    destruct it as [| |k|k|k|k|k|k|k e|k e|k|k]; cbn [nstep] in St.
    - injection St as <- <- <-. eapply f_keep; eauto; nots.
    - destruct (match n_cur s with Some k => n_off s k | None => true end); injection St as <- <- <-; eapply f_keep; eauto; nots.
    - destruct (n_off s k) eqn:O; injection St as <- <- <-; [eapply f_keep; eauto; nots|].
      unfold inv_f. cbn [n_on n_off n_held n_freed n_kept n_disp app]. five; auto.
      + intro j. rewrite frees_app, A. cbn. lia.
      + intros j H. apply set_true in H as [->|H]; [right; left; now left|]. destruct (C j H) as [|[[X|]|[[X|]|]]]; try discriminate X; cbn; auto 8.
      + intros j H. apply set_true in H as [->|H]; [right; left; now left|]. destruct (D j H) as [|[[X|]|[[X|]|[[X|]|]]]]; try discriminate X; cbn; auto 9.
      + intros j H. inapp H. destruct H as [H|[H|[]]]; auto. discriminate H.
    - destruct (n_off s k || n_disp s) eqn:O; injection St as <- <- <-.
      + apply orb_prop in O. eapply f_free; eauto; intros j [X|X]; try discriminate X; cbn; auto. injection X; auto.
      + unfold inv_f. cbn [app]. rewrite app_nil_r. five; auto.
        * intros j H. destruct (C j H) as [|[[X|]|[[X|]|]]]; try discriminate X; try (injection X as ->); cbn; auto 8.
        * intros j H. destruct (D j H) as [|[[X|]|[[X|]|[[X|]|]]]]; try discriminate X; try (injection X as ->); cbn; auto 9.
    - destruct (n_off s k) eqn:O; injection St as <- <- <-.
      + eapply f_free; eauto; intros j [X|X]; try discriminate X; cbn; auto. injection X; auto.
      + unfold inv_f. cbn [n_on n_off n_held n_freed n_kept n_disp app]. rewrite app_nil_r. five; auto.
        * intros j H. destruct (C j H) as [|[[X|]|[[X|]|(X & Y)]]]; try discriminate X; cbn; auto 8.
          -- injection X as ->. do 3 right. split; auto. apply set_same.
          -- do 3 right. split; auto. apply set_true; auto.
        * intros j H. destruct (D j H) as [|[[X|]|[[X|]|[[X|]|]]]]; try discriminate X; try (injection X as ->); cbn; auto 9.
    - destruct (n_disp s) eqn:O; injection St as <- <- <-.
      + eapply f_free; eauto; intros j [X|X]; try discriminate X; cbn; auto. injection X; auto.
      + unfold inv_f. cbn [n_on n_off n_held n_freed n_kept n_disp app]. five; auto.
        * intro j. rewrite frees_app, A. cbn. lia.
        * intros j H. destruct (C j H) as [|[[X|]|[[X|]|]]]; try discriminate X; auto 8.
        * intros j H. destruct (D j H) as [|[[X|]|[[X|]|[[X|]|(X & Y)]]]]; try discriminate X; cbn; auto 9. injection X as ->. auto 9.
        * intros j H. right. inapp H. destruct H as [H|[H|[]]]; [|injection H as ->; now left].
          right. destruct (E j H); auto. congruence.
    - destruct (k <? n_made s); [|injection St as <- <- <-; eapply f_keep; eauto; nots].
      destruct (off k s) as [s1 ls1] eqn:EO. injection St as <- <- <-. eapply f_off; eauto; nots.
    - destruct (n_on s k); [|discriminate]. destruct (n_src s k) as [|e r]; injection St as <- <- <-; eapply f_keep; eauto; nots.
    - destruct (n_comp s); injection St as <- <- <-; eapply f_keep; eauto; nots.
    - injection St as <- <- <-; eapply f_keep; eauto; nots.
    - destruct (all_free (n_kept s) s) as [s1 ls1] eqn:EF. injection St as <- <- <-.
      destruct (all_free_ok _ _ _ _ EF) as (SA & FA & FC & Q & NO). destruct SA as (M & CU & ON & OF & HE & _).
      unfold inv_f. cbn [n_on n_off n_held n_freed n_kept n_disp app]. rewrite ON, OF, HE. five; auto.
      + intro j. rewrite frees_app, A. specialize (FC j). destruct (n_freed s j); lia.
      + intros j H. rewrite FA. destruct (C j H) as [|[[X|]|[[X|]|]]]; try discriminate X; cbn; auto 8.
      + intros j H. rewrite FA. destruct (D j H) as [|[[X|]|[[X|]|[[X|]|(X & Y)]]]]; try discriminate X; cbn; auto 9.
    - destruct (off k s) as [s1 ls1] eqn:EO. injection St as <- <- <-. eapply f_off; eauto; nots.
  Qed.

  (** The thread of source k is at one place at a time. *)
  Definition at_k (k : nat) (it : nitem V) : bool :=
    match it with NSrc j | NSubj j | NFin j => j =? k | NCall j _ | NRet j _ => j =? k | _ => false end.
  Definition call_k (k : nat) (it : nitem V) : bool := match it with NCall j _ => j =? k | _ => false end.
  Definition ret_k (k : nat) (it : nitem V) : bool := match it with NRet j _ => j =? k | _ => false end.
  Definition inv_c (k : nat) s l tr : Prop :=
    count (at_k k) l <= 1 /\
    (forall j, n_off s j = existsb (is_off j) tr) /\
    (n_disp s = true -> n_comp s = true) /\
    (forall j, In (NSubj j) l -> n_comp s = true) /\
    (forall j e, In (NRet j e) l -> is_term e = true -> n_comp s = true) /\
    alternates k false tr /\
    busy k tr = (0 <? count (ret_k k) l) /\
    ((exists e, In (NCall k e) l /\ script k = shown k tr ++ e :: n_src s k) \/
     ((forall e, ~ In (NCall k e) l) /\ script k = shown k tr ++ n_src s k) \/
     (prefix (shown k tr) (script k) /\ (n_comp s = true \/ (n_off s k = true /\ forall e, ~ In (NCall k e) l)))) /\
    length (after_off k false tr) + (if n_off s k then count (call_k k) l else 0) <= 1.
  Ltac nine := split; [|split; [|split; [|split; [|split; [|split; [|split; [|split]]]]]]].
  Lemma c_perm : forall k s l l' tr, Permutation l l' -> inv_c k s l tr -> inv_c k s l' tr.
  Proof.
    intros k s l l' tr P (A & B & C & D & E & F & G & H & I).
    assert (T : forall x, In x l -> In x l') by (intros; eapply Permutation_in; eauto).
    assert (T' : forall x, In x l' -> In x l) by (intros; eapply Permutation_in; [symmetry|]; eauto).
    unfold inv_c. rewrite <- !(count_perm _ _ _ P). nine; eauto.
    destruct H as [(e & X & Y)|[(X & Y)|(X & [Y|(Y & Z)])]]; [left; eauto|right; left; split; auto|right; right; auto|right; right; split; auto].
    - intros e Q. apply (X e). auto.
    - right. split; auto. intros e Q. apply (Z e). auto.
  Qed.
  Lemma call_at : forall k l, count (call_k k) l <= count (at_k k) l.
  Proof. induction l as [|x l IH]; [auto|]. rewrite !count_cons. destruct x; cbn; lia. Qed.
  Lemma ret_at : forall k l, count (ret_k k) l + count (call_k k) l <= count (at_k k) l.
  Proof. induction l as [|x l IH]; [auto|]. rewrite !count_cons. destruct x; cbn; lia. Qed.
  Lemma no_call : forall k l, count (call_k k) l = 0 -> forall e, ~ In (NCall k e) l.
  Proof. intros k l H e I. pose proof (count_zero _ _ H _ I) as X. cbn in X. rewrite Nat.eqb_refl in X. discriminate. Qed.
  (** Steps that are not those of source k, do not end the subject, and show nothing of k. *)
  Lemma c_keep : forall k s s' it l its tr ls, inv_c k s (it :: l) tr ->
    count (at_k k) its <= count (at_k k) [it] -> count (call_k k) its = count (call_k k) [it] -> count (ret_k k) its = count (ret_k k) [it] ->
    (forall e, In (NCall k e) its <-> it = NCall k e) ->
    (forall j, n_off s' j = existsb (is_off j) (tr ++ ls)) -> n_src s' k = n_src s k ->
    (n_comp s = true -> n_comp s' = true) -> (n_disp s' = true -> n_comp s' = true) ->
    (forall j, In (NSubj j) its -> n_comp s' = true) -> (forall j e, In (NRet j e) its -> is_term e = true -> n_comp s' = true) ->
    shown k ls = [] -> (forall b, after_off k b ls = []) -> (forall b, alternates k b ls) -> (forall b, busy_after k b ls = b) ->
    inv_c k s' (its ++ l) (tr ++ ls).
  Proof.
    intros k s s' it l its tr ls (A & B & C & D & E & F & G & H & I) NA NC NR IC O SR CM DC SJ RT SH AF AL BU.
    unfold inv_c. rewrite !count_app, shown_app, SH, app_nil_r, after_app, AF, app_nil_r, SR, NC, NR.
    rewrite !count_cons in *. rewrite !count_nil in *. nine; auto.
    - lia.
    - intros j X. inapp X. destruct X; eauto. apply CM, (D j). now right.
    - intros j e X Y. inapp X. destruct X; eauto. apply CM, (E j e); auto. now right.
    - apply alt_app; auto.
    - unfold busy in *. rewrite busy_app, BU, G. f_equal. lia.
    - assert (M : n_off s k = true -> n_off s' k = true) by (intro X; rewrite O, existsb_app, <- B, X; auto).
      assert (IN : forall e, In (NCall k e) (its ++ l) <-> In (NCall k e) (it :: l)) by (intro e; rewrite in_app_iff; cbn; rewrite IC; tauto).
      destruct H as [(e & X & Y)|[(X & Y)|(X & [Y|(Y & Z)])]].
      + left. exists e. split; auto. now apply IN.
      + right. left. split; auto. intros e Q. apply IN in Q. now apply (X e).
      + right. right. auto.
      + right. right. split; auto. right. split; auto. intros e Q. apply IN in Q. now apply (Z e).
    - assert (NOF : n_off s k = false -> after_off k false tr = []).
      { rewrite B. clear. intro X. assert (Y : forall t : list (nlab V), existsb (is_off k) t = false -> after_off k false t = []); [|auto].
        induction t as [|x t IH]; auto. destruct x as [j|j|j|j|j e|j]; cbn; auto.
        - intro Q. apply orb_false_elim in Q as (-> & Q). auto.
        - rewrite andb_false_r. auto. }
      pose proof (call_at k l). destruct (n_off s k) eqn:OK.
      + destruct (n_off s' k); lia.
      + rewrite NOF in *; auto. cbn in *. destruct (n_off s' k); [|lia].
        destruct (call_k k it) eqn:Q; [|lia]. assert (at_k k it = true) by (destruct it; auto; discriminate). rewrite H1 in A. lia.
  Qed.
  Ltac noffb := let j := fresh in intro j; cbn [n_off free]; rewrite existsb_app; cbn; rewrite ?lfree_off, ?orb_false_r; auto.

  Lemma existsb_quiet_free : forall j k s, existsb (is_off j) (lfree (V:=V) k s) = false.
  Proof. exact lfree_off. Qed.
  Ltac ck := solve [auto | rewrite ?count_cons, ?count_nil; cbn; lia | nots | noffb | cbn; lia | cbn; repeat match goal with |- context[if ?b then _ else _] => destruct b end; cbn; intros; try split; intuition (try discriminate; try lia; auto)].
  Lemma c_step : forall k s it l tr s' its ls, inv_c k s (it :: l) tr -> nstep s it = Some (s', its, ls) -> inv_c k s' (its ++ l) (tr ++ ls).
  Proof.
    intros k s it l tr s' its ls I St. pose proof I as (A & B & C & D & E & F & G & H & L).
    assert (QF : forall x, shown k (lfree x s) = [] /\ (forall b, after_off k b (lfree x s) = []) /\ (forall b, alternates k b (lfree x s)) /\ (forall b, busy_after k b (lfree x s) = b)).
    { intro x. pose proof (quiet_free (V:=V) x s). repeat split; intros; [apply quiet_shown|apply quiet_after|apply quiet_alt|apply quiet_busy]; auto. }
    destruct it as [| |x|x|x|x|x|x|x e|x e|x|x]; cbn [nstep] in St.
    - injection St as <- <- <-. eapply c_keep; eauto; destruct (n_disp s); ck.
    - destruct (match n_cur s with Some k => n_off s k | None => true end); injection St as <- <- <-; (eapply c_keep; eauto; ck).
    - destruct (n_off s x); injection St as <- <- <-; (eapply c_keep; eauto; ck).
    - destruct (n_off s x || n_disp s); injection St as <- <- <-; (eapply c_keep; eauto; solve [ck | apply QF]).
    - destruct (n_off s x); injection St as <- <- <-; (eapply c_keep; eauto; solve [ck | apply QF]).
    - destruct (n_disp s); injection St as <- <- <-; (eapply c_keep; eauto; solve [ck | apply QF]).
    - destruct (x <? n_made s); [|injection St as <- <- <-; eapply c_keep; eauto; ck].
      destruct (off x s) as [s1 ls1] eqn:EO. injection St as <- <- <-.
      destruct (off_labels _ _ _ _ EO) as (_ & Q & _ & _ & _ & _ & _ & _ & CO & DI & SR & _).
      eapply c_keep; eauto; rewrite ?CO, ?DI, ?SR; try ck.
      + now apply (off_flag _ _ _ _ _ EO).
      + now apply quiet_shown.
      + intro. now apply quiet_after.
      + intro. now apply quiet_alt.
      + intro. now apply quiet_busy.
    - destruct (n_on s x); [|discriminate]. destruct (n_src s x) as [|e r] eqn:SX; injection St as <- <- <-.
      + eapply c_keep; eauto; ck.
      + destruct (Nat.eq_dec x k) as [->|N].
        * rewrite count_cons in A, G, L. cbn in A. rewrite Nat.eqb_refl in A.
          pose proof (ret_at k l) as RA. assert (C0 : count (call_k k) l = 0) by lia. assert (R0 : count (ret_k k) l = 0) by lia.
          pose proof (no_call k l C0) as NC. cbn in G, L. rewrite app_nil_r. unfold inv_c. cbn [n_off n_disp n_comp n_src]. rewrite set_same.
          rewrite count_app, count_app. assert (EC : script k = shown k tr ++ e :: r \/ (prefix (shown k tr) (script k) /\ (n_comp s = true \/ n_off s k = true))).
          { destruct H as [(e0 & X & Y)|[(X & Y)|(X & [Y|(Y & Z)])]]; auto.
            - destruct X as [X|X]; [discriminate|]. destruct (NC _ X).
            - left. now rewrite Y, SX. }
          rewrite count_app. destruct (n_off s k || n_disp s) eqn:OD.
          -- nine; auto.
             ++ rewrite count_cons, count_nil. cbn. rewrite Nat.eqb_refl. lia.
             ++ right. right. destruct EC as [EC|(P & [Y|Y])]; [|auto|]; (split; [|]).
                ** exists (e :: r). auto.
                ** apply orb_prop in OD as [OD|OD]; [right; split; auto|left; auto]. cbn. intros e0 [X|X]; [discriminate|]. now apply (NC e0).
                ** auto.
                ** right; split; auto. cbn. intros e0 [X|X]; [discriminate|]. now apply (NC e0).
          -- apply orb_false_elim in OD as (OD & DD). rewrite OD in *. nine; auto.
             ++ rewrite count_cons, count_nil. cbn. rewrite Nat.eqb_refl. lia.
             ++ intros j X. apply (D j). cbn in X. destruct X as [X|X]; [discriminate|]. now right.
             ++ intros j e0 X. apply (E j e0). cbn in X. destruct X as [X|X]; [discriminate|]. now right.
             ++ destruct EC as [EC|(P & [Y|Y])]; [left; exists e; split; auto; now left|right; right; auto|discriminate].
        * assert (XK : x =? k = false) by now apply Nat.eqb_neq.
          eapply c_keep; eauto; cbn [n_off n_src n_comp n_disp]; rewrite ?set_other; auto; try (destruct (n_off s x || n_disp s); cbn; rewrite ?count_cons, ?count_nil; cbn; rewrite ?XK; try nots; auto); try noffb; try nots.
          intro e0. split; [|discriminate]. intros [X|[]]. congruence.
    - destruct (n_comp s) eqn:CO; injection St as <- <- <-.
      + (* nothing is called *)
        rewrite app_nil_r. unfold inv_c. rewrite !count_app. rewrite !count_cons in *. cbn in A, G, L.
        assert (TK : forall f : nitem V -> bool, f (NSubj x) = false -> f (NSrc x) = false -> count f (if is_term e then [NSubj x] else [NSrc x]) = 0).
        { intros f F1 F2. destruct (is_term e); rewrite count_cons, count_nil, ?F1, ?F2; auto. }
        rewrite !(TK (ret_k k)), !(TK (call_k k)) by reflexivity. rewrite CO. nine; auto.
        * destruct (is_term e); rewrite count_cons, count_nil; cbn; lia.
        * right. right. split; auto. destruct H as [(e0 & X & Y)|[(X & Y)|(X & _)]]; auto; eexists; eauto.
        * destruct (n_off s k); lia.
      + destruct (Nat.eq_dec x k) as [->|N].
        * rewrite count_cons in A, G, L. cbn in A, G, L. rewrite Nat.eqb_refl in A, L. pose proof (ret_at k l) as RA.
          assert (C0 : count (call_k k) l = 0) by lia. assert (R0 : count (ret_k k) l = 0) by lia. pose proof (no_call k l C0) as NC.
          rewrite R0 in G. cbn in G. unfold busy in G.
          assert (DF : n_disp s = false) by (destruct (n_disp s); auto; discriminate (C eq_refl)).
          unfold inv_c. cbn [n_off n_disp n_comp n_src app]. rewrite shown_app, after_app, !count_cons. cbn. rewrite Nat.eqb_refl, C0, R0. nine; auto.
          -- noffb.
          -- rewrite DF. discriminate.
          -- intros j [X|X]; [discriminate|]. specialize (D j (or_intror X)). discriminate.
          -- intros j e0 [X|X] T; [injection X as <- <-; auto|]. specialize (E j e0 (or_intror X) T). discriminate.
          -- apply alt_app; auto. cbn. rewrite Nat.eqb_refl, G. auto.
          -- unfold busy. rewrite busy_app. cbn. now rewrite Nat.eqb_refl.
          -- right. destruct H as [(e0 & X & Y)|[(X & Y)|(X & [Y|(Y & Z)])]].
             ++ left. split; [intros e1 [Q|Q]; [discriminate|now apply (NC e1)]|]. destruct X as [X|X]; [|destruct (NC _ X)]. injection X as <-.
                rewrite Y, <- app_assoc. reflexivity.
             ++ destruct (X e). now left.
             ++ discriminate.
             ++ destruct (Z e). now left.
          -- rewrite app_length, orb_false_r, <- B. destruct (n_off s k); cbn; lia.
        * assert (XK : x =? k = false) by now apply Nat.eqb_neq.
          assert (DF : n_disp s = false) by (destruct (n_disp s); auto; discriminate (C eq_refl)).
          eapply c_keep; eauto; cbn [n_off n_src n_comp n_disp]; rewrite ?count_cons, ?count_nil; cbn; rewrite ?XK; auto; try congruence; try noffb; try nots.
          -- intro e0. split; [intros [X|[]]; discriminate|intro X; injection X as X; congruence].
          -- intros j e0 [X|[]] T. injection X as <- <-. auto.
    - injection St as <- <- <-. destruct (Nat.eq_dec x k) as [->|N].
      + rewrite count_cons in A, G, L. cbn in A, G, L. rewrite Nat.eqb_refl in A, G. pose proof (ret_at k l) as RA.
        assert (C0 : count (call_k k) l = 0) by lia. assert (R0 : count (ret_k k) l = 0) by lia. pose proof (no_call k l C0) as NC.
        rewrite R0 in G. cbn in G. unfold busy in G.
        assert (TK : forall f : nitem V -> bool, f (NSubj k) = false -> f (NSrc k) = false -> count f (if is_term e then [NSubj k] else [NSrc k]) = 0).
        { intros f F1 F2. destruct (is_term e); rewrite count_cons, count_nil, ?F1, ?F2; auto. }
        unfold inv_c. rewrite !count_app, shown_app, after_app. rewrite (TK (ret_k k)), (TK (call_k k)) by reflexivity. cbn. rewrite !app_nil_r, C0, R0. nine; auto.
        * destruct (is_term e); rewrite count_cons, count_nil; cbn; rewrite Nat.eqb_refl; lia.
        * noffb.
        * intros j X. inapp X. destruct X as [X|X]; [|apply (D j); now right]. destruct (is_term e) eqn:T; [|destruct X as [X|[]]; discriminate].
          apply (E k e); auto. now left.
        * intros j e0 X. inapp X. destruct X as [X|X]; [destruct (is_term e); destruct X as [X|[]]; discriminate|]. apply (E j e0). now right.
        * apply alt_app; auto. cbn. rewrite Nat.eqb_refl, G. auto.
        * unfold busy. rewrite busy_app. cbn. now rewrite Nat.eqb_refl.
        * assert (IN : forall e0, ~ In (NCall k e0) ((if is_term e then [NSubj k] else [NSrc k]) ++ l)).
          { intros e0 X. inapp X. destruct X as [X|X]; [destruct (is_term e); destruct X as [X|[]]; discriminate|now apply (NC e0)]. }
          right. destruct H as [(e0 & X & Y)|[(X & Y)|(X & [Y|(Y & Z)])]]; auto.
          destruct X as [X|X]; [discriminate|destruct (NC _ X)].
        * destruct (n_off s k); lia.
      + assert (XK : x =? k = false) by now apply Nat.eqb_neq.
        eapply c_keep; eauto; try (destruct (is_term e); rewrite ?count_cons, ?count_nil; cbn; rewrite ?XK; auto; nots); try noffb.
        -- intros j X. destruct (is_term e) eqn:T; [|destruct X as [X|[]]; discriminate]. apply (E x e); auto. now left.
    - destruct (all_free (n_kept s) s) as [s1 ls1] eqn:EF. injection St as <- <- <-.
      destruct (all_free_ok _ _ _ _ EF) as (SA & _ & _ & Q & NO). destruct SA as (_ & _ & _ & OF & _ & _ & CO & _ & SR).
      assert (CT : n_comp s = true) by (apply (D x); now left).
      eapply c_keep; eauto; cbn [n_off n_src n_comp n_disp]; rewrite ?CO, ?SR; try ck.
      + intro j. rewrite existsb_app, OF, B. destruct (existsb (is_off j) ls1) eqn:X; [|now rewrite orb_false_r].
        apply off_in in X. destruct (NO _ X).
      + now apply quiet_shown.
      + intro. now apply quiet_after.
      + intro. now apply quiet_alt.
      + intro. now apply quiet_busy.
    - destruct (off x s) as [s1 ls1] eqn:EO. injection St as <- <- <-.
      destruct (off_labels _ _ _ _ EO) as (_ & Q & _ & _ & _ & _ & _ & _ & CO & DI & SR & _).
      eapply c_keep; eauto; rewrite ?CO, ?DI, ?SR; try ck.
      + now apply (off_flag _ _ _ _ _ EO).
      + now apply quiet_shown.
      + intro. now apply quiet_after.
      + intro. now apply quiet_alt.
      + intro. now apply quiet_busy.
  Qed.

  (** Terminal events. *)
  Definition inv_d s l tr : Prop :=
    (forall k e, In (NBeg k e) tr -> n_on s k = true) /\
    (forall k e, In (NCall k e) l -> n_on s k = true) /\
    (n_comp s = true <-> ends tr) /\
    (n_comp s = true -> n_disp s = true \/ (exists j e, In (NRet j e) l /\ is_term e = true) \/ exists j, In (NSubj j) l) /\
    (n_disp s = true -> n_comp s = true) /\
    (forall j, In (NSubj j) l -> n_comp s = true) /\
    (forall j e, In (NRet j e) l -> is_term e = true -> n_comp s = true) /\
    sealed tr.
  Ltac eight := split; [|split; [|split; [|split; [|split; [|split; [|split]]]]]].
  Lemma d_perm : forall s l l' tr, Permutation l l' -> inv_d s l tr -> inv_d s l' tr.
  Proof.
    intros s l l' tr P (A & B & C & D & E & F & G & H).
    assert (T : forall x, In x l -> In x l') by (intros; eapply Permutation_in; eauto).
    assert (T' : forall x, In x l' -> In x l) by (intros; eapply Permutation_in; [symmetry|]; eauto).
    eight; eauto. intro X. destruct (D X) as [|[(j & e & Y & Z)|(j & Y)]]; eauto 6. right. left. exists j, e. auto.
  Qed.
  Definition nobeg (ls : list (nlab V)) : Prop := forall k e, ~ In (NBeg k e) ls.
  Lemma sealed_app : forall tr ls, sealed tr -> nobeg ls -> sealed (tr ++ ls).
  Proof.
    intros tr ls S N a k e b E T j e' I. apply app_eq_app in E as (m & [(E1 & E2)|(E1 & E2)]).
    - destruct m as [|x m]; cbn in *.
      + destruct (N k e). rewrite <- E2. now left.
      + injection E2 as <- E2. subst b. apply in_app_iff in I as [I|I]; [now apply (S a k e m E1 T j e')|now apply (N j e')].
    - destruct (N k e). rewrite E2. apply in_or_app. right. now left.
  Qed.
  Lemma sealed_snoc : forall tr k e, ~ ends tr -> sealed (tr ++ [NBeg k e]).
  Proof.
    intros tr k e N a j e1 b E T i e2 I. apply app_eq_app in E as (m & [(E1 & E2)|(E1 & E2)]).
    - destruct m as [|x m]; cbn in *.
      + inversion E2. subst. destruct I.
      + injection E2 as <- E2. subst b. apply N. exists j, e1. split; auto. rewrite E1. apply in_or_app. right. now left.
    - destruct m as [|x m]; cbn in *; [inversion E2; subst; destruct I|destruct m; discriminate E2].
  Qed.
  Lemma ends_app : forall tr ls, nobeg ls -> (ends (tr ++ ls) <-> ends tr).
  Proof.
    intros tr ls N. unfold ends. split; intros (k & e & I & T); exists k, e; split; auto.
    - apply in_app_iff in I as [I|I]; auto. destruct (N _ _ I).
    - apply in_or_app. now left.
  Qed.
  Lemma quiet_nobeg : forall ls, quiet ls -> nobeg ls.
  Proof. intros ls Q k e I. destruct (Q _ I) as [(j & E)|(j & E)]; discriminate. Qed.
  Lemma d_keep : forall s s' it l its tr ls, inv_d s (it :: l) tr -> nobeg ls ->
    (forall k, n_on s k = true -> n_on s' k = true) -> n_comp s' = n_comp s -> n_disp s' = n_disp s ->
    (forall k e, In (NCall k e) its -> n_on s' k = true) ->
    (forall j e, In (NRet j e) its -> False) -> (forall j, In (NSubj j) its -> n_comp s = true) ->
    (forall j e, it = NRet j e -> is_term e = true -> In (NSubj j) its) -> (forall j, it <> NSubj j) ->
    inv_d s' (its ++ l) (tr ++ ls).
  Proof.
    intros s s' it l its tr ls (A & B & C & D & E & F & G & H) NB ON CM DI CL RT SJ IR IS.
    unfold inv_d. rewrite CM, DI. eight; auto.
    - intros k e I. inapp I. destruct I as [I|I]; [eauto|destruct (NB _ _ I)].
    - intros k e I. inapp I. destruct I as [I|I]; eauto. apply ON, (B k e). now right.
    - now rewrite ends_app.
    - intro X. destruct (D X) as [|[(j & e & Y & Z)|(j & Y)]]; auto.
      + destruct Y as [->|Y].
        * right. right. exists j. apply in_or_app. left. eapply IR; eauto.
        * right. left. exists j, e. split; auto. apply in_or_app. now right.
      + destruct Y as [->|Y]; [destruct (IS j eq_refl)|]. right. right. exists j. apply in_or_app. now right.
    - intros j I. inapp I. destruct I as [I|I]; eauto. apply (F j). now right.
    - intros j e I. inapp I. destruct I as [I|I]; [destruct (RT _ _ I)|]. apply (G j e). now right.
    - now apply sealed_app.
  Qed.
  Ltac dk := solve [auto | nots | apply quiet_nobeg, quiet_free | intros ? ? [] | intros ? ? [?|[]]; discriminate | intros; cbn; rewrite set_true; auto
                   | intros; cbn in *; repeat match goal with H : context[if ?b then _ else _] |- _ => destruct b end; cbn in *; intuition (try discriminate; auto)].
  Lemma d_step : forall s it l tr s' its ls, inv_d s (it :: l) tr -> nstep s it = Some (s', its, ls) -> inv_d s' (its ++ l) (tr ++ ls).
  Proof.
    intros s it l tr s' its ls I St. pose proof I as (A & B & C & D & E & F & G & H).
    destruct it as [| |x|x|x|x|x|x|x e|x e|x|x]; cbn [nstep] in St.
    - injection St as <- <- <-. eapply d_keep; eauto; dk.
    - destruct (match n_cur s with Some k => n_off s k | None => true end); injection St as <- <- <-; (eapply d_keep; eauto; dk).
    - destruct (n_off s x); injection St as <- <- <-; (eapply d_keep; eauto; dk).
    - destruct (n_off s x || n_disp s); injection St as <- <- <-; (eapply d_keep; eauto; dk).
    - destruct (n_off s x); injection St as <- <- <-; (eapply d_keep; eauto; dk).
    - destruct (n_disp s) eqn:Q; injection St as <- <- <-; (eapply d_keep; eauto; dk).
    - destruct (x <? n_made s); [|injection St as <- <- <-; eapply d_keep; eauto; dk].
      destruct (off x s) as [s1 ls1] eqn:EO. injection St as <- <- <-.
      destruct (off_labels _ _ _ _ EO) as (_ & Q & _ & _ & _ & ON & _ & _ & CO & DI & SR & _).
      eapply d_keep; eauto; rewrite ?ON, ?DI; try dk. now apply quiet_nobeg.
    - destruct (n_on s x) eqn:ON; [|discriminate]. destruct (n_src s x) as [|e r] eqn:SX; injection St as <- <- <-; (eapply d_keep; eauto; try dk).
      cbn. intros k0 e0 X. destruct (n_off s x || n_disp s); destruct X as [X|[]]; inversion X; subst; auto.
    - assert (ON : n_on s x = true) by (apply (B x e); now left).
      destruct (n_comp s) eqn:CO; injection St as <- <- <-.
      + eapply d_keep; eauto; dk.
      + assert (NE : ~ ends tr) by (intro X; apply C in X; discriminate).
        unfold inv_d. cbn [n_on n_comp n_disp]. eight.
        * intros k0 e0 X. inapp X. destruct X as [X|[X|[]]]; [eauto|]. injection X as <- <-. auto.
        * intros k0 e0 X. inapp X. destruct X as [[X|[]]|X]; [discriminate|]. apply (B k0 e0). now right.
        * split; [intro T; exists x, e; split; auto; apply in_or_app; right; now left|].
          intros (k0 & e0 & X & T). inapp X. destruct X as [X|[X|[]]]; [destruct NE; exists k0, e0; auto|]. injection X as <- <-. auto.
        * intro T. right. left. exists x, e. split; auto. now left.
        * intro T. discriminate (E T).
        * intros j X. inapp X. destruct X as [[X|[]]|X]; [discriminate|]. discriminate (F j (or_intror X)).
        * intros j e0 X T. inapp X. destruct X as [[X|[]]|X]; [injection X as <- <-; auto|]. discriminate (G j e0 (or_intror X) T).
        * now apply sealed_snoc.
    - injection St as <- <- <-. eapply d_keep; eauto; try dk.
      + intros j X. destruct (is_term e) eqn:T; [|destruct X as [X|[]]; discriminate]. apply (G x e); auto. now left.
      + intros j e0 X T. injection X as <- <-. rewrite T. now left.
    - destruct (all_free (n_kept s) s) as [s1 ls1] eqn:EF. injection St as <- <- <-.
      destruct (all_free_ok _ _ _ _ EF) as (SA & _ & _ & Q & NO). destruct SA as (_ & _ & ON & _ & _ & _ & CO & _ & _).
      assert (CT : n_comp s = true) by (apply (F x); now left). pose proof (quiet_nobeg _ Q) as NB.
      unfold inv_d. cbn [n_on n_comp n_disp]. rewrite ON, CO, CT. eight; auto.
      + intros k0 e0 X. inapp X. destruct X as [X|X]; [eauto|destruct (NB _ _ X)].
      + intros k0 e0 X. inapp X. destruct X as [[X|[]]|X]; [discriminate|]. apply (B k0 e0). now right.
      + rewrite ends_app by auto. rewrite <- C. intuition.
      + now apply sealed_app.
    - destruct (off x s) as [s1 ls1] eqn:EO. injection St as <- <- <-.
      destruct (off_labels _ _ _ _ EO) as (_ & Q & _ & _ & _ & ON & _ & _ & CO & DI & SR & _).
      eapply d_keep; eauto; rewrite ?ON, ?DI; try dk. now apply quiet_nobeg.
  Qed.

  (** A source's thread goes on as long as it has something to emit. *)
  Definition inv_e (k : nat) s l tr : Prop := n_src s k = [] \/ 1 <= count (at_k k) l.
  Lemma e_perm : forall k s l l' tr, Permutation l l' -> inv_e k s l tr -> inv_e k s l' tr.
  Proof. intros k s l l' tr P. unfold inv_e. now rewrite (count_perm _ _ _ P). Qed.
  Lemma e_keep : forall k s s' it l its tr ls, inv_e k s (it :: l) tr -> n_src s' k = n_src s k ->
    (at_k k it = true -> 1 <= count (at_k k) its) -> inv_e k s' (its ++ l) (tr ++ ls).
  Proof.
    intros k s s' it l its tr ls [I|I] SR A; unfold inv_e; rewrite SR; auto. right.
    rewrite count_app. rewrite count_cons in I. destruct (at_k k it); [specialize (A eq_refl)|]; lia.
  Qed.
  Ltac ek := cbn; intros; repeat match goal with |- context[if ?b then _ else _] => destruct b end; rewrite ?count_cons, ?count_nil; cbn;
             repeat match goal with H : (_ =? _) = true |- _ => rewrite H end; try discriminate; auto; lia.
  Lemma e_step : forall k s it l tr s' its ls, inv_e k s (it :: l) tr -> nstep s it = Some (s', its, ls) -> inv_e k s' (its ++ l) (tr ++ ls).
  Proof.
    intros k s it l tr s' its ls I St.
    destruct it as [| |x|x|x|x|x|x|x e|x e|x|x]; cbn [nstep] in St.
    - injection St as <- <- <-. eapply e_keep; eauto; ek.
    - destruct (match n_cur s with Some k => n_off s k | None => true end); injection St as <- <- <-; (eapply e_keep; eauto; ek).
    - destruct (n_off s x); injection St as <- <- <-; (eapply e_keep; eauto; ek).
    - destruct (n_off s x || n_disp s); injection St as <- <- <-; (eapply e_keep; eauto; ek).
    - destruct (n_off s x); injection St as <- <- <-; (eapply e_keep; eauto; ek).
    - destruct (n_disp s); injection St as <- <- <-; (eapply e_keep; eauto; ek).
    - destruct (x <? n_made s); [|injection St as <- <- <-; eapply e_keep; eauto; ek].
      destruct (off x s) as [s1 ls1] eqn:EO. injection St as <- <- <-.
      destruct (off_labels _ _ _ _ EO) as (_ & Q & _ & _ & _ & _ & _ & _ & CO & DI & SR & _).
      eapply e_keep; eauto; rewrite ?SR; ek.
    - destruct (n_on s x) eqn:ON; [|discriminate]. destruct (n_src s x) as [|e r] eqn:SX; injection St as <- <- <-.
      + destruct (Nat.eq_dec x k) as [->|N]; [now left|]. eapply e_keep; eauto. cbn. intro X. apply Nat.eqb_eq in X. congruence.
      + destruct (Nat.eq_dec x k) as [->|N].
        * right. rewrite count_app. destruct (n_off s k || n_disp s); rewrite count_cons; cbn; rewrite Nat.eqb_refl; lia.
        * eapply e_keep; eauto; cbn; [rewrite set_other; auto|]. intro X. apply Nat.eqb_eq in X. congruence.
    - destruct (n_comp s); injection St as <- <- <-; (eapply e_keep; eauto; ek).
    - injection St as <- <- <-. eapply e_keep; eauto; ek.
    - destruct (all_free (n_kept s) s) as [s1 ls1] eqn:EF. injection St as <- <- <-.
      destruct (all_free_ok _ _ _ _ EF) as (SA & _ & _ & Q & NO). destruct SA as (_ & _ & ON & _ & _ & _ & CO & _ & SR).
      eapply e_keep; eauto; cbn [n_src]; rewrite ?SR; ek.
    - destruct (off x s) as [s1 ls1] eqn:EO. injection St as <- <- <-.
      destruct (off_labels _ _ _ _ EO) as (_ & Q & _ & _ & _ & ON & _ & _ & CO & DI & SR & _).
      eapply e_keep; eauto; rewrite ?SR; ek.
  Qed.

  (** The connection whose source ends is disposed. *)
  Definition inv_g s l tr : Prop := forall k e, In (NBeg k e) tr -> is_term e = true ->
    n_off s k = true \/ (exists e', In (NRet k e') l /\ is_term e' = true) \/ In (NSubj k) l \/ In (NFin k) l.
  Lemma g_perm : forall s l l' tr, Permutation l l' -> inv_g s l tr -> inv_g s l' tr.
  Proof.
    intros s l l' tr P I k e B T. assert (Q : forall x, In x l -> In x l') by (intros; eapply Permutation_in; eauto).
    destruct (I k e B T) as [|[(e' & X & Y)|[|]]]; eauto 6.
  Qed.
  Lemma g_keep : forall s s' it l its tr ls, inv_g s (it :: l) tr -> (forall k, n_off s k = true -> n_off s' k = true) ->
    (forall k e, In (NBeg k e) ls -> is_term e = true -> In (NRet k e) its) ->
    (forall k e, it = NRet k e -> is_term e = true -> In (NSubj k) its) -> (forall k, it = NSubj k -> In (NFin k) its) ->
    (forall k, it = NFin k -> n_off s' k = true) -> inv_g s' (its ++ l) (tr ++ ls).
  Proof.
    intros s s' it l its tr ls I O NB R1 R2 R3 k e B T. rewrite !in_app_iff. apply in_app_iff in B as [B|B].
    - destruct (I k e B T) as [X|[(e' & [X|X] & Y)|[[X|X]|[X|X]]]]; subst; auto.
      + right. right. left. left. eapply R1; eauto.
      + right. left. exists e'. rewrite in_app_iff. auto.
      + right. right. right. left. now apply R2.
    - right. left. exists e. rewrite in_app_iff. auto.
  Qed.
  Lemma g_step : forall s it l tr s' its ls, inv_g s (it :: l) tr -> nstep s it = Some (s', its, ls) -> inv_g s' (its ++ l) (tr ++ ls).
  Proof.
    intros s it l tr s' its ls I St.
    assert (QF : forall x, nobeg (lfree x s)) by (intro; apply quiet_nobeg, quiet_free).
    destruct it as [| |x|x|x|x|x|x|x e|x e|x|x]; cbn [nstep] in St.
    - injection St as <- <- <-. eapply g_keep; eauto; nots.
    - destruct (match n_cur s with Some k => n_off s k | None => true end); injection St as <- <- <-; (eapply g_keep; eauto; nots).
    - destruct (n_off s x); injection St as <- <- <-; (eapply g_keep; eauto; nots).
    - destruct (n_off s x || n_disp s); injection St as <- <- <-; (eapply g_keep; eauto; try nots). intros k e X. destruct (QF _ _ _ X).
    - destruct (n_off s x); injection St as <- <- <-; (eapply g_keep; eauto; try nots). intros k e X. destruct (QF _ _ _ X).
    - destruct (n_disp s); injection St as <- <- <-; (eapply g_keep; eauto; try nots). intros k e X. destruct (QF _ _ _ X).
    - destruct (x <? n_made s); [|injection St as <- <- <-; eapply g_keep; eauto; nots].
      destruct (off x s) as [s1 ls1] eqn:EO. injection St as <- <- <-.
      destruct (off_labels _ _ _ _ EO) as (OF & Q & _). eapply g_keep; eauto; try nots.
      + intros k K. rewrite OF. destruct (n_off s x); auto. apply set_true. auto.
      + intros k e X. destruct (quiet_nobeg _ Q _ _ X).
    - destruct (n_on s x) eqn:ON; [|discriminate]. destruct (n_src s x) as [|e r] eqn:SX; injection St as <- <- <-; (eapply g_keep; eauto; nots).
    - destruct (n_comp s); injection St as <- <- <-; (eapply g_keep; eauto; try nots).
      intros k e0 [X|[]] T. injection X as <- <-. now left.
    - injection St as <- <- <-. eapply g_keep; eauto; try nots. intros k e0 X T. injection X as <- <-. rewrite T. now left.
    - destruct (all_free (n_kept s) s) as [s1 ls1] eqn:EF. injection St as <- <- <-.
      destruct (all_free_ok _ _ _ _ EF) as (SA & _ & _ & Q & NO). destruct SA as (_ & _ & _ & OF & _).
      eapply g_keep; eauto; try nots.
      + cbn. now rewrite OF.
      + intros k e X. destruct (quiet_nobeg _ Q _ _ X).
      + intros k X. injection X as <-. now left.
    - destruct (off x s) as [s1 ls1] eqn:EO. injection St as <- <- <-.
      destruct (off_labels _ _ _ _ EO) as (OF & Q & _). eapply g_keep; eauto; try nots.
      + intros k K. rewrite OF. destruct (n_off s x); auto. apply set_true. auto.
      + intros k e X. destruct (quiet_nobeg _ Q _ _ X).
      + intros k X. injection X as <-. rewrite OF. destruct (n_off s x) eqn:OX; auto. apply set_true. auto.
  Qed.

  (** At the beginning. *)
  Lemma init_item : forall users m it, In it (concat (n_threads (V:=V) users m)) -> it = NConn \/ (exists k, it = NDispose k) \/ exists k, it = NSrc k.
  Proof.
    intros users m it H. unfold n_threads in H. rewrite concat_app, in_app_iff in H. destruct H as [H|H].
    - apply in_concat in H as (t & T & I). apply in_map_iff in T as (u & <- & _). apply in_map_iff in I as ([|k] & <- & _); cbn; eauto.
    - apply in_concat in H as (t & T & I). apply in_map_iff in T as (k & <- & _). destruct I as [<-|[]]. eauto.
  Qed.
  Lemma init_at : forall users m k, count (at_k k) (concat (n_threads (V:=V) users m)) <= 1.
  Proof.
    intros users m k. unfold n_threads. rewrite concat_app, count_app.
    assert (Z : count (at_k k) (concat (map (map (n_op (V:=V))) users)) = 0).
    { apply count_zero_of. intros x H. apply in_concat in H as (t & T & I). apply in_map_iff in T as (u & <- & _). now apply in_map_iff in I as ([|j] & <- & _). }
    rewrite Z, Nat.add_0_l. clear Z. enough (W : forall b, count (at_k k) (concat (map (fun j => [NSrc (V:=V) j]) (seq b m))) <= 1) by apply W. induction m as [|m IH]; intro b; cbn; [rewrite count_nil; lia|]. rewrite count_cons. cbn.
    destruct (Nat.eqb_spec b k); [|apply IH]. subst. rewrite count_zero_of; [lia|].
    intros x H. apply in_concat in H as (t & T & I). apply in_map_iff in T as (j & <- & J). apply in_seq in J. destruct I as [<-|[]]. cbn. apply Nat.eqb_neq. lia.
  Qed.
  Lemma init_src : forall users m k, k < m -> 1 <= count (at_k k) (concat (n_threads (V:=V) users m)).
  Proof.
    intros users m k K. enough (Z : count (at_k k) (concat (n_threads (V:=V) users m)) <> 0) by lia.
    intro Z. assert (I : In (NSrc k) (concat (n_threads (V:=V) users m))).
    { unfold n_threads. rewrite concat_app, in_app_iff. right. apply in_concat. exists [NSrc k]. split; [|now left].
      apply in_map_iff. exists k. split; auto. apply in_seq. lia. }
    pose proof (count_zero _ _ Z _ I) as X. cbn in X. rewrite Nat.eqb_refl in X. discriminate.
  Qed.
End Proof.
