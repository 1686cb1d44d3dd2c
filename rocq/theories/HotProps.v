(** Subscribing to a subject while it emits on another thread (C87). *)
From Coq Require Import Permutation.
From Verif Require Import Base Concur HotSpec HotModel.

Section Proof.
  Variable ext : nat -> bool.
  Variable stops : nat -> nat -> bool.

  Definition pre (i : nat) (tr : list hlab) : Prop := exists a b c, tr = a ++ HLook i :: b ++ HSwept i :: c.

  Definition inv (s : hst) (l : list hitem) (tr : list hlab) : Prop :=
    (forall i, In (HJoin i) tr -> In i (h_list s) \/ In (HLeave i) tr) /\
    (forall i, In (HEnds i) tr -> h_flag s i = true) /\
    (forall i, In (IAdd i) l -> In (HLook i) tr) /\
    (forall i, In i (h_list s) -> h_up s i = true \/ In (ICheck i) l \/ In (IAdd i) l \/ In (IDrop i) l) /\
    (forall i, In i (h_list s) -> h_flag s i = true ->
       In (ICheck i) l \/ In (IDrop i) l \/ (ext i = false /\ In (ISweep i) l) \/
       (In (IAdd i) l /\ (ext i = true \/ pre i tr)) \/ (ext i = false /\ late i tr)).

  Lemma pre_app : forall i tr ls, pre i tr -> pre i (tr ++ ls).
  Proof. intros i tr ls (a & b & c & ->). exists a, b, (c ++ ls). now rewrite <- !app_assoc; cbn [app]; rewrite <- !app_assoc. Qed.
  Lemma late_app : forall i tr ls, late i tr -> late i (tr ++ ls).
  Proof.
    intros i tr ls (a & b & c & d & ->). exists a, b, c, (d ++ ls).
    rewrite <- !app_assoc. cbn [app]. rewrite <- !app_assoc. cbn [app]. rewrite <- !app_assoc. reflexivity.
  Qed.
  Lemma pre_put : forall i tr, pre i tr -> late i (tr ++ [HPut i]).
  Proof.
    intros i tr (a & b & c & ->). exists a, b, c, [].
    rewrite <- !app_assoc. cbn [app]. rewrite <- !app_assoc. reflexivity.
  Qed.
  Lemma look_swept : forall i tr, In (HLook i) tr -> pre i (tr ++ [HSwept i]).
  Proof.
    intros i tr H. apply in_split in H as (a & b & ->). exists a, b, []. now rewrite <- app_assoc.
  Qed.
  Lemma upd_same : forall {A} (f : nat -> A) i x, upd f i x i = x.
  Proof. intros. unfold upd. now rewrite Nat.eqb_refl. Qed.
  Lemma upd_true : forall f i j, f j = true -> upd f i true j = true.
  Proof. intros. unfold upd. now destruct (j =? i). Qed.
  Lemma upd_cases : forall f i j, upd f i true j = true -> f j = true \/ j = i.
  Proof. intros f i j. unfold upd. destruct (j =? i) eqn:E; auto. apply Nat.eqb_eq in E. auto. Qed.

  Lemma inv_perm : forall s l l' tr, Permutation l l' -> inv s l tr -> inv s l' tr.
  Proof.
    intros s l l' tr P (A & B & C & D & E).
    assert (T : forall x, In x l -> In x l') by (intros; eapply Permutation_in; eauto).
    assert (T' : forall x, In x l' -> In x l) by (intros; eapply Permutation_in; [symmetry|]; eauto).
    split; [|split; [|split; [|split]]]; auto.
    - intros i H. destruct (D i H) as [|[|[|]]]; auto 6.
    - intros i H F. destruct (E i H F) as [|[|[[]|[[]|]]]]; auto 8.
  Qed.
  (** Steps that leave the list, the flags and the upstreams alone. *)
  Lemma inv_same : forall s s' it l its tr ls, inv s (it :: l) tr ->
    h_list s' = h_list s -> h_flag s' = h_flag s -> h_up s' = h_up s ->
    (forall i, it <> ICheck i) -> (forall i, it <> IAdd i) -> (forall i, it <> IDrop i) -> (forall i, it <> ISweep i) ->
    (forall i, ~ In (HJoin i) ls) -> (forall i, ~ In (HEnds i) ls) -> (forall i, ~ In (IAdd i) its) ->
    inv s' (its ++ l) (tr ++ ls).
  Proof.
    intros s s' it l its tr ls (A & B & C & D & E) EL EF EU N1 N2 N3 N4 J1 J2 J3.
    split; [|split; [|split; [|split]]]; rewrite ?EL, ?EF, ?EU.
    - intros i H. apply in_app_iff in H as [H|H]; [|destruct (J1 i H)]. destruct (A i H); auto. right. apply in_or_app. auto.
    - intros i H. apply in_app_iff in H as [H|H]; [auto|destruct (J2 i H)].
    - intros i H. apply in_app_iff in H as [H|H]; [destruct (J3 i H)|]. apply in_or_app. left. apply C. now right.
    - intros i H. destruct (D i H) as [|[[F|]|[[F|]|[F|]]]]; auto; try (now destruct (N1 i)); try (now destruct (N2 i)); try (now destruct (N3 i));
        right; rewrite !in_app_iff; auto 8.
    - intros i H F. rewrite !in_app_iff.
      destruct (E i H F) as [[G|G]|[[G|G]|[(G1 & [G|G])|[([G|G] & G2)|(G1 & G2)]]]];
        try (now destruct (N1 i)); try (now destruct (N2 i)); try (now destruct (N3 i)); try (now destruct (N4 i)); auto 8.
      + do 3 right. left. split; auto. destruct G2; auto. right. now apply pre_app.
      + do 4 right. split; auto. now apply late_app.
  Qed.

  Lemma inv_dispose : forall s it l tr i, inv s (it :: l) tr ->
    (forall j, it <> ICheck j) -> (forall j, it <> IAdd j) -> (forall j, it <> IDrop j) -> (forall j, it <> ISweep j) ->
    inv (fst (fst (h_dispose ext s i))) (snd (fst (h_dispose ext s i)) ++ l) (tr ++ snd (h_dispose ext s i)).
  Proof.
    intros s it l tr i (A & B & C & D & E) N1 N2 N3 N4. unfold h_dispose. cbn [fst snd].
    split; [|split; [|split; [|split]]]; cbn [h_list h_flag h_up].
    - intros j H. rewrite in_app_iff in H. rewrite in_app_iff. destruct H as [H|H]; [destruct (A j H); auto|].
      destruct (ext i); cbn in H; intuition discriminate.
    - intros j H. rewrite in_app_iff in H. destruct H as [H|H]; [apply upd_true; auto|].
      destruct (ext i); cbn in H; destruct H as [H|H]; try discriminate H; try (injection H as <-; now rewrite upd_same); try contradiction.
      destruct H as [H|[]]; discriminate H.
    - intros j H. rewrite in_app_iff in H. apply in_or_app. left. destruct H as [H|H]; [|apply C; now right].
      destruct (ext i); [destruct (h_up s i)|]; cbn in H; intuition discriminate.
    - intros j H. destruct (D j H) as [|[[F|]|[[F|]|[F|]]]]; auto; try (now destruct (N1 j)); try (now destruct (N2 j)); try (now destruct (N3 j));
        right; rewrite !in_app_iff; auto 8.
    - intros j H F. rewrite !in_app_iff. apply upd_cases in F as [F|F].
      + destruct (E j H F) as [[G|G]|[[G|G]|[(G1 & [G|G])|[([G|G] & G2)|(G1 & G2)]]]];
          try (now destruct (N1 j)); try (now destruct (N2 j)); try (now destruct (N3 j)); try (now destruct (N4 j)); auto 8.
        * do 3 right. left. split; auto. destruct G2; auto. right. now apply pre_app.
        * do 4 right. split; auto. now apply late_app.
      + subst j. destruct (ext i) eqn:EX; [|right; right; left; split; cbn; auto].
        destruct (D i H) as [U|[[G|G]|[[G|G]|[G|G]]]]; try (now destruct (N1 i)); try (now destruct (N2 i)); try (now destruct (N3 i)); auto 8.
        rewrite U. right. left. left. now left.
  Qed.

  Lemma inv_step : forall s it l tr s' its ls, inv s (it :: l) tr -> hstep ext stops s it = Some (s', its, ls) ->
    inv s' (its ++ l) (tr ++ ls).
  Proof.
    intros s it l tr s' its ls I St.
    destruct it as [i|i|i|i| |i| |i|i|i|i]; cbn [hstep] in St.
    - (* ISub *)
      destruct (h_over s); inversion St; subst; clear St.
      + eapply inv_same; eauto; intros; try discriminate; cbn; intuition discriminate.
      + destruct I as (A & B & C & D & E). unfold hold.
        split; [|split; [|split; [|split]]]; cbn [h_list h_flag h_up].
        * intros j H. rewrite in_app_iff in H. rewrite !in_app_iff. destruct H as [H|[H|[]]]; [destruct (A j H); auto|].
          injection H as ->. cbn; auto.
        * intros j H. rewrite in_app_iff in H. destruct H as [H|[H|[]]]; [auto|discriminate H].
        * intros j H. apply in_or_app. left. apply C. cbn in H. destruct H as [H|H]; [discriminate H|now right].
        * intros j H. cbn [app]. rewrite in_app_iff in H. destruct H as [H|[<-|[]]]; [|right; left; now left].
          destruct (D j H) as [|[[F|]|[[F|]|[F|]]]]; try discriminate F; auto; right; cbn; auto 8.
        * intros j H F. cbn [app]. rewrite in_app_iff in H. destruct H as [H|[<-|[]]]; [|left; now left].
          destruct (E j H F) as [[G|G]|[[G|G]|[(G1 & [G|G])|[([G|G] & G2)|(G1 & G2)]]]]; try discriminate G; cbn; auto 8.
          -- do 3 right. left. split; auto. destruct G2; auto. right. now apply pre_app.
          -- do 4 right. split; auto. now apply late_app.
    - (* ICheck *)
      destruct I as (A & B & C & D & E). destruct (h_flag s i) eqn:FI; inversion St; subst; clear St.
      + rewrite app_nil_r. split; [|split; [|split; [|split]]]; auto.
        * intros j H. cbn in H. destruct H as [H|H]; [discriminate H|]. apply C. now right.
        * intros j H. cbn [app]. destruct (D j H) as [|[[F|]|[[F|]|[F|]]]]; try discriminate F; auto; try (injection F as ->); cbn; auto 8.
        * intros j H F. cbn [app].
          destruct (E j H F) as [[G|G]|[[G|G]|[(G1 & [G|G])|[([G|G] & G2)|(G1 & G2)]]]]; try discriminate G; try (injection G as ->); cbn; auto 8.
      + split; [|split; [|split; [|split]]].
        * intros j H. rewrite in_app_iff in H. rewrite in_app_iff. destruct H as [H|[H|[]]]; [destruct (A j H); auto|discriminate H].
        * intros j H. rewrite in_app_iff in H. destruct H as [H|[H|[]]]; [auto|discriminate H].
        * intros j H. cbn in H. apply in_or_app. destruct H as [H|H]; [injection H as ->; right; now left|]. left. apply C. now right.
        * intros j H. cbn [app]. destruct (D j H) as [|[[F|]|[[F|]|[F|]]]]; try discriminate F; auto; try (injection F as ->); cbn; auto 8.
        * intros j H F. cbn [app].
          destruct (E j H F) as [[G|G]|[[G|G]|[(G1 & [G|G])|[([G|G] & G2)|(G1 & G2)]]]]; try discriminate G; try (injection G as ->; congruence); cbn; auto 8.
          -- do 3 right. left. split; auto. destruct G2; auto. right. now apply pre_app.
          -- do 4 right. split; auto. now apply late_app.
    - (* IAdd *)
      destruct I as (A & B & C & D & E). destruct (ext i && h_flag s i) eqn:FI; inversion St; subst; clear St.
      + rewrite app_nil_r. split; [|split; [|split; [|split]]]; auto.
        * intros j H. cbn in H. destruct H as [H|H]; [discriminate H|]. apply C. now right.
        * intros j H. cbn [app]. destruct (D j H) as [|[[F|]|[[F|]|[F|]]]]; try discriminate F; auto; try (injection F as ->); cbn; auto 8.
        * intros j H F. cbn [app].
          destruct (E j H F) as [[G|G]|[[G|G]|[(G1 & [G|G])|[([G|G] & G2)|(G1 & G2)]]]]; try discriminate G; try (injection G as ->); cbn; auto 8.
      + split; [|split; [|split; [|split]]]; cbn [h_list h_flag h_up app].
        * intros j H. rewrite in_app_iff in H. rewrite in_app_iff. destruct H as [H|[H|[]]]; [destruct (A j H); auto|discriminate H].
        * intros j H. rewrite in_app_iff in H. destruct H as [H|[H|[]]]; [auto|discriminate H].
        * intros j H. apply in_or_app. left. apply C. now right.
        * intros j H. destruct (D j H) as [G|[[F|]|[[F|]|[F|]]]]; try discriminate F; auto; [left; now apply upd_true|].
          injection F as ->. left. apply upd_same.
        * intros j H F.
          destruct (E j H F) as [[G|G]|[[G|G]|[(G1 & [G|G])|[([G|G] & G2)|(G1 & G2)]]]]; try discriminate G; auto 8.
          -- injection G as ->. rewrite F, andb_true_r in FI. rewrite FI in *. destruct G2 as [G2|G2]; [discriminate|].
             do 4 right. split; auto. now apply pre_put.
          -- do 3 right. left. split; auto. destruct G2; auto. right. now apply pre_app.
          -- do 4 right. split; auto. now apply late_app.
    - (* IDrop *)
      destruct I as (A & B & C & D & E). inversion St; subst; clear St. unfold hold.
      assert (K : forall j, In j (filter (fun j => negb ((j =? i) || h_flag s j)) (h_list s)) -> In j (h_list s) /\ j <> i /\ h_flag s j = false).
      { intros j H. apply filter_In in H as (H1 & H2). apply negb_true_iff, orb_false_iff in H2 as (H2 & H3). apply Nat.eqb_neq in H2. auto. }
      split; [|split; [|split; [|split]]]; cbn [h_list h_flag h_up app].
      + intros j H. rewrite in_app_iff in H. rewrite in_app_iff. destruct H as [H|H].
        * destruct (A j H) as [G|G]; auto. destruct ((j =? i) || h_flag s j) eqn:O.
          -- right. right. apply in_map. apply filter_In. auto.
          -- left. apply filter_In. rewrite O. auto.
        * apply in_map_iff in H as (x & H & _). discriminate H.
      + intros j H. rewrite in_app_iff in H. destruct H as [H|H]; auto. apply in_map_iff in H as (x & H & _). discriminate H.
      + intros j H. apply in_or_app. left. apply C. now right.
      + intros j H. apply K in H as (H & N & _). destruct (D j H) as [|[[F|]|[[F|]|[F|]]]]; try discriminate F; auto. injection F as ->. congruence.
      + intros j H F. apply K in H as (_ & _ & H). congruence.
    - inversion St; subst; clear St. eapply inv_same; eauto; intros; try discriminate; cbn; auto.
      intro H. apply in_map_iff in H as (x & H & _). discriminate H.
    - destruct (h_flag s i); inversion St; subst; clear St; eapply inv_same; eauto; intros; try discriminate; cbn; auto; try (intuition discriminate).
      destruct (stops i (S (h_seen s i))); cbn; intuition discriminate.
    - (* IDone *)
      destruct I as (A & B & C & D & E). inversion St; subst; clear St. unfold hold.
      split; [|split; [|split; [|split]]]; cbn [h_list h_flag h_up].
      + intros j H. rewrite in_app_iff in H. rewrite in_app_iff. right. destruct H as [H|H].
        * destruct (A j H); auto. right. now apply in_map.
        * apply in_map_iff in H as (x & H & _). discriminate H.
      + intros j H. rewrite in_app_iff in H. destruct H as [H|H]; auto. apply in_map_iff in H as (x & H & _). discriminate H.
      + intros j H. apply in_or_app. left. apply C. rewrite in_app_iff in H. destruct H as [H|H]; [|now right].
        apply in_map_iff in H as (x & H & _). discriminate H.
      + intros j [].
      + intros j [].
    - destruct (h_flag s i); inversion St; subst; clear St; eapply inv_same; eauto; intros; try discriminate; cbn; auto; intuition discriminate.
    - injection St as <- <- <-. eapply (inv_dispose s (ISet i)); eauto; intros; discriminate.
    - (* ISweep *)
      destruct I as (A & B & C & D & E). inversion St; subst; clear St.
      split; [|split; [|split; [|split]]].
      + intros j H. rewrite in_app_iff in H. rewrite in_app_iff. destruct H as [H|[H|[]]]; [destruct (A j H); auto|discriminate H].
      + intros j H. rewrite in_app_iff in H. destruct H as [H|[H|[]]]; [auto|discriminate H].
      + intros j H. apply in_or_app. left. apply C. rewrite in_app_iff in H. destruct H as [H|H]; [|now right].
        destruct (h_up s' i); cbn in H; intuition discriminate.
      + intros j H. rewrite !in_app_iff. destruct (D j H) as [|[[F|]|[[F|]|[F|]]]]; try discriminate F; auto 8.
      + intros j H F. rewrite !in_app_iff.
        destruct (E j H F) as [[G|G]|[[G|G]|[(G1 & [G|G])|[([G|G] & G2)|(G1 & G2)]]]]; try discriminate G; auto 8.
        * injection G as ->. destruct (D j H) as [U|[[G|G]|[[G|G]|[G|G]]]]; try discriminate G; auto 8.
          -- rewrite U. right. left. left. now left.
          -- do 3 right. left. split; auto. right. apply look_swept. apply C. now right.
        * do 3 right. left. split; auto. destruct G2; auto. right. now apply pre_app.
        * do 4 right. split; auto. now apply late_app.
    - destruct (ext i) eqn:EX; [|inversion St; subst; eapply inv_same; eauto; intros; try discriminate; cbn; auto].
      pose proof (inv_dispose s (IKill i) l tr i I ltac:(discriminate) ltac:(discriminate) ltac:(discriminate) ltac:(discriminate)) as W.
      destruct (h_dispose ext s i) as [[a b] c]. injection St as <- <- <-. exact W.
  Qed.

  Lemma inv_exec : forall ts tr c, gexec (hstep ext stops) (h_start ts) tr c -> inv (fst c) (concat (snd c)) tr.
  Proof.
    intros ts tr c X. refine (gexec_inv (hstep ext stops) inv inv_perm inv_step _ _ _ X _).
    split; [|split; [|split; [|split]]]; try (now intros i []).
    intros i H. exfalso. cbn [snd h_start] in H. apply in_concat in H as (t & H1 & H2). apply in_map_iff in H1 as (u & <- & _).
    apply in_map_iff in H2 as ([] & H2 & _); discriminate H2.
  Qed.
End Proof.

(** Subscribed with a disposable: once such an observer has ended and every call has returned,
    the subject no longer holds it, whatever the interleaving of subscribing, emitting,
    completing and disposing threads. *)
Theorem C87_with_disposable : forall ext stops ts tr c i, gexec (hstep ext stops) (h_start ts) tr c -> gfinished c ->
  ext i = true -> In (HJoin i) tr -> In (HEnds i) tr ->
  In (HLeave i) tr /\ ~ In i (h_list (fst c)).
Proof.
  intros ext stops ts tr c i X F EX J N. apply inv_exec in X as (A & B & _ & _ & E). rewrite (gfinished_concat c F) in *.
  assert (G : ~ In i (h_list (fst c))).
  { intro H. destruct (E i H (B i N)) as [[]|[[]|[(_ & [])|[([] & _)|(G & _)]]]]. congruence. }
  split; auto. destruct (A i J); auto. contradiction.
Qed.
Print Assumptions C87_with_disposable.

(** Subscribed without one: the same, unless the observer released its upstreams between the
    check of set_upstream and the hand-over.  Missing: that case (below). *)
Theorem C87_without_partial : forall ext stops ts tr c i, gexec (hstep ext stops) (h_start ts) tr c -> gfinished c ->
  In (HJoin i) tr -> In (HEnds i) tr ->
  (In (HLeave i) tr /\ ~ In i (h_list (fst c))) \/ late i tr.
Proof.
  intros ext stops ts tr c i X F J N. apply inv_exec in X as (A & B & _ & _ & E). rewrite (gfinished_concat c F) in *.
  destruct (in_dec Nat.eq_dec i (h_list (fst c))) as [H|H].
  - destruct (E i H (B i N)) as [[]|[[]|[(_ & [])|[([] & _)|(_ & G)]]]]. auto.
  - left. split; auto. destruct (A i J); auto. contradiction.
Qed.
Print Assumptions C87_without_partial.

(** An observer taking one value, subscribed without a disposable while another thread emits:
    it gets its value, ends, and the subject keeps it. *)
Definition C87_claim : Prop := forall ext stops ts tr c i, gexec (hstep ext stops) (h_start ts) tr c -> gfinished c ->
  In (HJoin i) tr -> In (HEnds i) tr -> In (HLeave i) tr.
Definition hot_sched : list nat := [0; 0; 1; 1; 1; 1; 1; 0].
Definition hot_run := gtol (hstep (fun _ => false) (fun _ k => k =? 1)) hot_sched (h_start [[HSub 0]; [HEmit]]).
Theorem C87_kept_refuted : ~ C87_claim.
Proof.
  intro C. assert (X := gtol_sound (hstep (fun _ => false) (fun _ k => k =? 1)) hot_sched (h_start [[HSub 0]; [HEmit]])).
  assert (H : In (HLeave 0) (fst hot_run)).
  { eapply C; [exact X| | |].
    - vm_compute. intros t [<-|[<-|[]]]; auto.
    - vm_compute. auto.
    - vm_compute. auto 8. }
  vm_compute in H. intuition discriminate.
Qed.
Print Assumptions C87_kept_refuted.

(** In the same run one thread is about to insert into the observer's container of upstreams
    while the other one is about to walk it: a data race. *)
Definition C87_race_claim : Prop := forall ext stops ts tr c i t1 t2 r1 r2 a b d,
  gexec (hstep ext stops) (h_start ts) tr c -> ext i = false ->
  snd c = a ++ t1 :: b ++ t2 :: d -> t1 = IAdd i :: r1 -> t2 = ISweep i :: r2 -> False.
Theorem C87_race_refuted : ~ C87_race_claim.
Proof.
  intro C. assert (X := gtol_sound (hstep (fun _ => false) (fun _ k => k =? 1)) (firstn 6 hot_sched) (h_start [[HSub 0]; [HEmit]])).
  eapply (C (fun _ => false) _ _ _ _ 0 [IAdd 0] [ISweep 0] [] [] [] [] []); [exact X|reflexivity|vm_compute; reflexivity|reflexivity|reflexivity].
Qed.
Print Assumptions C87_race_refuted.

(** Four observers, the first two with a disposable; one takes one value, one is disposed by the
    user, one is completed with the subject; in this interleaving all of them are given up. *)
Definition hot_case := gtol (hstep (fun i => i <? 2) (fun i k => (i =? 0) && (k =? 1))) (concat (repeat [0; 1; 2; 0; 1; 1] 12))
  (h_start [[HSub 0; HSub 1; HSub 2]; [HEmit; HEmit; HEmit; HDone]; [HKill 1; HSub 3]]).
Example C87_case : gfinished (snd hot_case) /\
  In (HJoin 0) (fst hot_case) /\ In (HGot 3) (fst hot_case) /\ In (HEnds 0) (fst hot_case) /\ In (HLeave 0) (fst hot_case) /\
  In (HEnds 2) (fst hot_case) /\ In (HLeave 2) (fst hot_case) /\ late 0 (fst hot_run).
Proof.
  split; [|do 6 (split; [vm_compute; auto 30|])].
  - vm_compute. intros t H. repeat (destruct H as [<-|H]; [auto|]). destruct H.
  - exists [HJoin 0], [HGot 0; HEnds 0], [], []. reflexivity.
Qed.

(** C87.  Nothing is given up early: an observer leaves the subject only when it has ended or the subject was completed. *)
Section Early.
  Variable ext : nat -> bool.
  Variable stops : nat -> nat -> bool.
  Variable done : Prop.
  Definition inv_n (s : hst) (l : list hitem) (tr : list hlab) : Prop :=
    (forall i, In (IDrop i) l \/ In (ISweep i) l -> h_flag s i = true) /\
    (forall i, h_flag s i = true -> In (HEnds i) tr) /\
    (forall i, In (HLeave i) tr -> In (HEnds i) tr \/ h_over s = true) /\
    (h_over s = true -> done) /\ (In IDone l -> done).
  Lemma n_perm : forall s l l' tr, Permutation l l' -> inv_n s l tr -> inv_n s l' tr.
  Proof.
    intros s l l' tr P (A & B & C & D & E).
    assert (T' : forall x, In x l' -> In x l) by (intros; eapply Permutation_in; [symmetry|]; eauto).
    split; [|split; [|split; [|split]]]; auto. intros i [H|H]; eauto.
  Qed.
  Lemma n_keep : forall s s' it l its tr ls, inv_n s (it :: l) tr ->
    (forall i, h_flag s i = true -> h_flag s' i = true) -> (forall i, h_flag s' i = true -> h_flag s i = true \/ In (HEnds i) ls) ->
    (h_over s = true -> h_over s' = true) -> (h_over s' = true -> done) -> (In IDone its -> done) ->
    (forall i, In (IDrop i) its \/ In (ISweep i) its -> h_flag s' i = true) ->
    (forall i, In (HLeave i) ls -> h_flag s i = true \/ h_over s' = true) -> inv_n s' (its ++ l) (tr ++ ls).
  Proof.
    intros s s' it l its tr ls (A & B & C & D & E) F1 F2 O1 O2 I1 I2 L. split; [|split; [|split; [|split]]]; auto.
    - intros i [H|H]; apply in_app_iff in H as [H|H]; auto; apply F1, A; [left|right]; now right.
    - intros i H. apply in_or_app. destruct (F2 i H); auto.
    - intros i H. rewrite in_app_iff. apply in_app_iff in H as [H|H].
      + destruct (C i H); auto.
      + destruct (L i H); auto.
    - intro H. apply in_app_iff in H as [H|H]; auto. apply E. now right.
  Qed.
  Lemma no_map : forall (f : nat -> hitem) x l, (forall j, f j <> x) -> ~ In x (map f l).
  Proof. intros f x l N H. apply in_map_iff in H as (j & E & _). now apply (N j). Qed.
  Lemma n_step : forall s it l tr s' its ls, inv_n s (it :: l) tr -> hstep ext stops s it = Some (s', its, ls) -> inv_n s' (its ++ l) (tr ++ ls).
  Proof.
    intros s it l tr s' its ls I St. pose proof I as (A & B & C & D & E).
    destruct it as [i|i|i|i| |i| |i|i|i|i]; cbn [hstep] in St.
    - destruct (h_over s) eqn:O; injection St as <- <- <-; (eapply n_keep; eauto; cbn; try congruence; intuition discriminate).
    - destruct (h_flag s i) eqn:F; injection St as <- <- <-; (eapply n_keep; eauto; cbn; intuition (try discriminate); congruence).
    - destruct (ext i && h_flag s i) eqn:F; injection St as <- <- <-; (eapply n_keep; eauto; cbn; intuition (try discriminate)).
      apply andb_prop in F as (_ & F). congruence.
    - injection St as <- <- <-. eapply n_keep; eauto; cbn; try tauto.
      intros j H. apply in_map_iff in H as (x & E1 & H). injection E1 as ->. apply filter_In in H as (_ & H).
      apply orb_prop in H as [H|H]; auto. apply Nat.eqb_eq in H as ->. left. apply A. left. now left.
    - injection St as <- <- <-. eapply n_keep; eauto; cbn; try tauto.
      + intro H. now apply no_map in H.
      + intros j [H|H]; now apply no_map in H.
    - destruct (h_flag s i) eqn:F; injection St as <- <- <-; (eapply n_keep; eauto; cbn; try (destruct (stops i (S (h_seen s i)))); cbn; intuition (try discriminate)).
    - injection St as <- <- <-. eapply n_keep; eauto; cbn; try tauto.
      + intro. apply E. now left.
      + intro H. now apply no_map in H.
      + intros j [H|H]; now apply no_map in H.
    - destruct (h_flag s i) eqn:F; injection St as <- <- <-; (eapply n_keep; eauto; cbn; intuition discriminate).
    - injection St as <- <- <-. unfold h_dispose. eapply n_keep; eauto; cbn; intros; try (destruct (ext i), (h_up s i)); cbn in *; intuition (try discriminate; auto using upd_true);
        try (match goal with H : _ = ?x |- _ => injection H as <-; apply upd_same end);
        try (match goal with H : upd _ _ _ _ = true |- _ => apply upd_cases in H as [H| ->]; auto end).
    - injection St as <- <- <-. assert (F : h_flag s i = true) by (apply A; right; now left).
      eapply n_keep; eauto; cbn; intros; try (destruct (h_up s i)); cbn in *; intuition (try discriminate); congruence.
    - destruct (ext i) eqn:X; injection St as <- <- <-; [|eapply n_keep; eauto; cbn; intuition discriminate].
      unfold h_dispose. rewrite X. eapply n_keep; eauto; cbn; intros; try (destruct (h_up s i)); cbn in *; intuition (try discriminate; auto using upd_true);
        try (match goal with H : _ = ?x |- _ => injection H as <-; apply upd_same end);
        try (match goal with H : upd _ _ _ _ = true |- _ => apply upd_cases in H as [H| ->]; auto end).
  Qed.
End Early.
Theorem C87_not_early : forall ext stops ts tr c, gexec (hstep ext stops) (h_start ts) tr c ->
  forall i, In (HLeave i) tr -> In (HEnds i) tr \/ (h_over (fst c) = true /\ In HDone (concat ts)).
Proof.
  intros ext stops ts tr c X.
  assert (Y : inv_n (In HDone (concat ts)) (fst c) (concat (snd c)) tr).
  { refine (gexec_inv (hstep ext stops) (inv_n (In HDone (concat ts))) (n_perm _) (n_step ext stops _) _ _ _ X _). cbn.
    assert (Z : forall it, In it (concat (map (map h_op) ts)) -> exists o, it = h_op o /\ In o (concat ts)).
    { intros it H. apply in_concat in H as (t & T & J). apply in_map_iff in T as (u & <- & U). apply in_map_iff in J as (o & <- & O).
      exists o. split; auto. apply in_concat. eauto. }
    split; [|split; [|split; [|split]]]; cbn; intros; try discriminate; try tauto.
    - destruct H as [H|H]; apply Z in H as ([] & E & _); discriminate.
    - apply Z in H as ([] & E & O); try discriminate. exact O. }
  destruct Y as (_ & _ & C & D & _). intros i H. destruct (C i H); auto.
Qed.
Print Assumptions C87_not_early.
