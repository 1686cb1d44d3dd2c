(** Connecting, disconnecting and connecting again a connectable observable (C88). *)
From Coq Require Import Permutation.
From Verif Require Import Base MultiSpec Concur ReconSpec ReconModel ReconProofs.

Section All.
  Context {V : Type}.
  Variables (script : nat -> list (ev V)) (users : list (list nop)) (m : nat).
  Definition nc0 : nst V * list (list (nitem V)) := (n_init script, n_threads users m).
  Lemma run_a : forall tr c, gexec nstep nc0 tr c -> inv_a (fst c) (concat (snd c)) tr.
  Proof.
    intros tr c X. refine (gexec_inv nstep inv_a a_perm (a_step script) _ _ _ X _). cbn.
    split; [|split; [|split; [|split; [|split; [|split]]]]]; cbn; intros; try discriminate; try lia; auto.
    - destruct (init_item _ _ _ H) as [E|[(j & E)|(j & E)]]; discriminate.
    - rewrite count_zero_of; auto. intros x H. destruct (init_item _ _ _ H) as [->|[(j & ->)|(j & ->)]]; auto.
    - intros a k b E. destruct a; discriminate.
  Qed.
  Lemma run_f : forall tr c, gexec nstep nc0 tr c -> inv_f (fst c) (concat (snd c)) tr.
  Proof.
    intros tr c X. refine (gexec_inv nstep inv_f f_perm (f_step script) _ _ _ X _). cbn.
    split; [|split; [|split; [|split]]]; cbn; intros; try discriminate; tauto.
  Qed.
  Lemma run_c : forall k tr c, gexec nstep nc0 tr c -> inv_c script k (fst c) (concat (snd c)) tr.
  Proof.
    intros k tr c X. refine (gexec_inv nstep (inv_c script k) (c_perm script k) (c_step script k) _ _ _ X _). cbn.
    assert (Z : forall f : nitem V -> bool, (forall j, f (NSrc j) = false) -> f NConn = false -> (forall j, f (NDispose j) = false) -> count f (concat (n_threads users m)) = 0).
    { intros f F1 F2 F3. apply count_zero_of. intros x H. destruct (init_item _ _ _ H) as [->|[(j & ->)|(j & ->)]]; auto. }
    unfold inv_c. rewrite (Z (ret_k k)), (Z (call_k k)) by auto. split; [apply init_at|].
    split; [auto|]. split; [discriminate|]. split; [intros j H; destruct (init_item _ _ _ H) as [E|[(i & E)|(i & E)]]; discriminate|].
    split; [intros j e H; destruct (init_item _ _ _ H) as [E|[(i & E)|(i & E)]]; discriminate|].
    split; [exact I|]. split; [reflexivity|]. split; [|cbn; lia].
    right. left. split; auto. intros e H. destruct (init_item _ _ _ H) as [E|[(i & E)|(i & E)]]; discriminate.
  Qed.
  Lemma run_d : forall tr c, gexec nstep nc0 tr c -> inv_d (fst c) (concat (snd c)) tr.
  Proof.
    intros tr c X. refine (gexec_inv nstep inv_d d_perm (d_step script) _ _ _ X _). cbn.
    unfold inv_d. cbn. split; [tauto|]. split; [intros k e H; destruct (init_item _ _ _ H) as [E|[(i & E)|(i & E)]]; discriminate|].
    split; [split; [discriminate|intros (k & e & [] & _)]|]. split; [discriminate|]. split; [discriminate|].
    split; [intros j H; destruct (init_item _ _ _ H) as [E|[(i & E)|(i & E)]]; discriminate|].
    split; [intros j e H; destruct (init_item _ _ _ H) as [E|[(i & E)|(i & E)]]; discriminate|].
    intros a k e b E. destruct a; discriminate.
  Qed.
  Lemma run_e : forall k tr c, k < m -> gexec nstep nc0 tr c -> inv_e k (fst c) (concat (snd c)) tr.
  Proof.
    intros k tr c K X. refine (gexec_inv nstep (inv_e k) (e_perm k) (e_step script k) _ _ _ X _). right. now apply init_src.
  Qed.
End All.

(** C88.  However many threads connect and dispose: at most one connection is not disposed.  A source is
    subscribed at most once per connection and only when every earlier connection is disposed, and
    when subscribers are inside calls of two connections, one of these connections is disposed. *)
Theorem C88_one_connection : forall {V} (script : nat -> list (ev V)) users m tr c,
  gexec nstep (n_init script, n_threads users m) tr c ->
  one_connection tr /\
  (forall k e, In (NBeg k e) tr -> In (NOn k) tr) /\
  (forall j k, busy j tr = true -> busy k tr = true -> j <> k -> In (NOff j) tr \/ In (NOff k) tr).
Proof.
  intros V script users m tr c X. destruct (run_a _ _ _ _ _ X) as (A & B & C & D & _ & _ & G).
  destruct (run_d _ _ _ _ _ X) as (H & _). split; auto. split; [intros k e I; apply B; eauto|].
  assert (BU : forall t k, busy_after (V:=V) k false t = true -> exists e, In (NBeg k e) t).
  { intros t k. assert (Z : forall u b, busy_after (V:=V) k b u = true -> b = true \/ exists e, In (NBeg k e) u).
    { induction u as [|x u IH]; intros b Q; auto. destruct x as [j|j|j|j|j e|j]; cbn in Q; apply IH in Q as [Q|(e' & Q)]; eauto using in_cons.
      - destruct (Nat.eqb_spec j k); auto. subst. right. exists e. now left.
      - destruct (j =? k); [discriminate|auto]. }
    intro Q. destruct (Z _ _ Q); [discriminate|auto]. }
  intros j k J K N. destruct (BU _ _ J) as (e1 & J1), (BU _ _ K) as (e2 & K1). apply H in J1, K1.
  rewrite <- !off_in, <- !A. destruct (n_off (fst c) j) eqn:O1; auto. destruct (n_off (fst c) k) eqn:O2; auto.
  pose proof (C j (D j J1) O1). pose proof (C k (D k K1) O2). congruence.
Qed.
Print Assumptions C88_one_connection.

(** C88.  The source's own subscription is disposed at most once and not while the connection is in use;
    when all threads have finished it has been disposed, if the connection was disposed or a terminal event was delivered. *)
Theorem C88_released : forall {V} (script : nat -> list (ev V)) users m tr c,
  gexec nstep (n_init script, n_threads users m) tr c ->
  (forall k, frees k tr <= 1) /\
  (forall k, In (NFree k) tr -> In (NOff k) tr \/ ends tr) /\
  (gfinished c -> forall k, In (NOn k) tr -> In (NOff k) tr \/ ends tr -> frees k tr = 1).
Proof.
  intros V script users m tr c X. destruct (run_a _ _ _ _ _ X) as (A & B & _). destruct (run_f _ _ _ _ _ X) as (F1 & F2 & F3 & F4 & _).
  destruct (run_d _ _ _ _ _ X) as (_ & _ & D1 & D2 & D3 & _). split; [|split].
  - intro k. rewrite F1. destruct (n_freed (fst c) k); lia.
  - intros k I. assert (Q : n_freed (fst c) k = true).
    { destruct (n_freed (fst c) k) eqn:Q; auto. specialize (F1 k). rewrite Q in F1. unfold frees in F1. apply length_zero_iff_nil in F1.
      assert (Y : In (NFree k) (filter (fun x => match x with NFree j => j =? k | _ => false end) tr)) by (apply filter_In; split; auto; apply Nat.eqb_refl).
      rewrite F1 in Y. destruct Y. }
    destruct (F2 _ Q) as [Y|Y]; [left; apply off_in; now rewrite <- A|right; apply D1; auto].
  - intros Fi k I Y. rewrite (gfinished_concat c Fi) in *. apply B in I. rewrite F1.
    destruct Y as [Y|Y].
    + apply off_in in Y. rewrite <- A in Y. destruct (F3 k I) as [->|[[]|[[]|(_ & Z)]]]; auto. congruence.
    + apply D1 in Y. destruct (D2 Y) as [Z|[(j & e & [] & _)|(j & [])]].
      destruct (F4 k I) as [->|[[]|[[]|[[]|(Q & _)]]]]; auto. congruence.
Qed.
Print Assumptions C88_released.

(** C88.  The connection whose source ended is disposed, so that connect() makes a new one unless the subject has ended. *)
Theorem C88_ended_is_disposed : forall {V} (script : nat -> list (ev V)) users m tr c,
  gexec nstep (n_init script, n_threads users m) tr c -> gfinished c ->
  forall k e, In (NBeg k e) tr -> is_term e = true -> In (NOff k) tr.
Proof.
  intros V script users m tr c X Fi k e B T. destruct (run_a _ _ _ _ _ X) as (A & _).
  assert (G : inv_g (fst c) (concat (snd c)) tr) by (refine (gexec_inv nstep inv_g g_perm (g_step script) _ _ _ X _); intros i e0 []).
  rewrite (gfinished_concat c Fi) in G. apply off_in. rewrite <- A. destruct (G k e B T) as [|[(e' & [] & _)|[[]|[]]]]; auto.
Qed.
Print Assumptions C88_ended_is_disposed.

(** C88.  The subscribers see, of every connection, a prefix of what its source emits, one call at a time; once a connection is
    disposed at most one more of its events begins; and after a terminal event no event of any connection begins. *)
Theorem C88_values : forall {V} (script : nat -> list (ev V)) users m tr c,
  gexec nstep (n_init script, n_threads users m) tr c ->
  sealed tr /\
  (forall k, prefix (shown k tr) (script k) /\ alternates k false tr /\ length (after_off k false tr) <= 1) /\
  (gfinished c -> forall k, k < m -> In (NOn k) tr -> ~ In (NOff k) tr -> ~ ends tr -> shown k tr = script k).
Proof.
  intros V script users m tr c X. destruct (run_d _ _ _ _ _ X) as (_ & _ & D1 & _ & _ & _ & _ & S). split; auto. split.
  - intro k. destruct (run_c _ _ _ k _ _ X) as (_ & _ & _ & _ & _ & F & _ & H & L). split; [|split; auto; lia].
    destruct H as [(e & _ & Y)|[(_ & Y)|(Y & _)]]; auto; eexists; eauto.
  - intros Fi k K ON NO NE. destruct (run_c _ _ _ k _ _ X) as (_ & B & _ & _ & _ & _ & _ & H & _).
    rewrite (gfinished_concat c Fi) in *.
    assert (SE : n_src (fst c) k = []) by (destruct (run_e _ _ _ k _ _ K X) as [Y|Y]; auto; rewrite (gfinished_concat c Fi) in Y; rewrite count_nil in Y; lia).
    destruct H as [(e & [] & _)|[(_ & Y)|(_ & [Y|(Y & _)])]].
    + rewrite Y, SE. now rewrite app_nil_r.
    + apply D1 in Y. contradiction.
    + rewrite B, off_in in Y. contradiction.
Qed.
Print Assumptions C88_values.

(** C88.  What the subject stores for a connection stays there until a terminal event, whatever is disposed
    in the meantime (publish_subject.hpp:30). *)
Theorem C88_kept_always : forall {V} (script : nat -> list (ev V)) users m tr c,
  gexec nstep (n_init script, n_threads users m) tr c ->
  forall k, In (NKeep k) tr -> ~ ends tr -> In k (n_kept (fst c)).
Proof.
  intros V script users m tr c X k I NE. destruct (run_f _ _ _ _ _ X) as (_ & _ & _ & _ & F). destruct (run_d _ _ _ _ _ X) as (_ & _ & D1 & _ & D3 & _).
  destruct (F k I) as [Y|Y]; auto. destruct NE. apply D1, D3, Y.
Qed.
Print Assumptions C88_kept_always.

(** So it grows with the number of connections ever made: n times connect and dispose leave n entries
    although no connection is left. *)
Definition again (b n : nat) : list nop := flat_map (fun k => [UConnect; UDispose k]) (seq b n).
Lemma one_step : forall V (s s' : nst V) it its ls r rest tr c, nstep s it = Some (s', its, ls) ->
  gexec nstep (s', (its ++ r) :: rest) tr c -> gexec nstep (s, (it :: r) :: rest) (ls ++ tr) c.
Proof.
  intros V s s' it its ls r rest tr c E X. eapply gexec_app; [|exact X]. change ls with ([] ++ ls).
  eapply GSnoc; [constructor|]. apply (GStep nstep s [] it r rest s' its ls E).
Qed.
Lemma again_runs : forall V n b (s : nst V) rest, n_made s = b -> n_disp s = false ->
  match n_cur s with Some k => n_off s k | None => true end = true -> (forall k, b <= k -> n_off s k = false) ->
  exists tr s', gexec nstep (s, (map n_op (again b n) : list (nitem V)) :: rest) tr (s', [] :: rest) /\
    length (n_kept s') = n + length (n_kept s) /\ n_made s' = b + n /\ (forall k, n_off s k = true -> n_off s' k = true) /\ (forall k, b <= k < b + n -> n_off s' k = true).
Proof.
  induction n as [|n IH]; intros b s rest M D C O.
  - exists [], s. split; [constructor|]. split; auto. split; [lia|]. split; auto. lia.
  - assert (OB : n_off s b = false) by (apply O; lia).
    set (s1 := NS (S b) (Some b) (set (n_on s) b true) (set (n_off s) b true) (set (n_held s) b true) (set (n_freed s) b true) (b :: n_kept s) (n_comp s) false (n_src s)).
    destruct (IH (S b) s1 rest) as (tr & s' & X & K & MM & P & Q).
    + reflexivity.
    + reflexivity.
    + cbn. unfold set. now rewrite Nat.eqb_refl.
    + intros k L. cbn. unfold set. destruct (Nat.eqb_spec k b); [lia|]. apply O. lia.
    + eexists. exists s'. split.
      * change (map n_op (again b (S n))) with (NConn :: NDispose b :: map (n_op (V:=V)) (again (S b) n)).
        eapply one_step; [cbn; rewrite D; reflexivity|]. cbn [app].
        eapply one_step; [cbn; rewrite C, M; reflexivity|]. cbn [app].
        eapply one_step; [cbn; rewrite OB; reflexivity|]. cbn [app].
        eapply one_step; [cbn; rewrite OB, D; reflexivity|]. cbn [app].
        eapply one_step; [cbn; rewrite OB; reflexivity|]. cbn [app].
        eapply one_step; [cbn; rewrite ?D; reflexivity|]. cbn [app].
        eapply (one_step _ _ s1 _ []); [|exact X]. unfold nstep. cbn [n_made].
        replace (b <? S b) with true by (symmetry; apply Nat.ltb_lt; lia). unfold off. cbn [n_off n_held n_made]. rewrite OB.
        replace (set (n_held s) b true b) with true by (unfold set; now rewrite Nat.eqb_refl). reflexivity.
      * rewrite K. cbn. split; [lia|]. split; [lia|]. split.
        -- intros k L. apply P. cbn. unfold set. now destruct (k =? b).
        -- intros k L. destruct (Nat.eq_dec k b) as [->|N]; [apply P; cbn; unfold set; now rewrite Nat.eqb_refl|]. apply Q. lia.
Qed.
Theorem C88_kept_refuted : forall V (script : nat -> list (ev V)) n,
  exists tr c, gexec nstep (n_init script, n_threads [again 0 n] 0) tr c /\ gfinished c /\
    length (n_kept (fst c)) = n /\ n_made (fst c) = n /\ forall k, k < n -> n_off (fst c) k = true.
Proof.
  intros V script n. destruct (again_runs V n 0 (n_init script) []) as (tr & s' & X & K & MM & _ & Q); auto.
  exists tr, (s', [[]]). split; [exact X|]. split; [intros t [<-|[]]; auto|]. cbn in *. rewrite K. split; [lia|]. split; [exact MM|intros k L; apply Q; lia].
Qed.
Print Assumptions C88_kept_refuted.

(** just-like sources on their own threads. *)
Definition rc (scr : nat -> list (ev nat)) users m sched := gtol nstep sched (n_init scr, n_threads users m).
Definition ones (i n : nat) : list nat := repeat i n.

(** Connection 0 is disposed and connection 1 made while connection 0 is inside a subscriber: connection 1 calls the
    same subscriber before that call returns (connectable_observable.hpp:100-115; the subject is not serialized). *)
Definition ov_scr (k : nat) : list (ev nat) := [Next (10 * k); Next (10 * k + 1)].
Definition ov := rc ov_scr [[UConnect; UDispose 0; UConnect]] 2 (ones 0 6 ++ ones 1 2 ++ ones 0 7 ++ ones 2 2).
Theorem C88_overlap_refuted : exists tr c, gexec nstep (n_init ov_scr, n_threads [[UConnect; UDispose 0; UConnect]] 2) tr c /\
  busy 0 tr = true /\ busy 1 tr = true /\ In (NOff 0) tr /\ ~ In (NOff 1) tr.
Proof.
  exists (fst ov), (snd ov). split; [apply gtol_sound|]. vm_compute. repeat split; auto 10. intuition discriminate.
Qed.
Print Assumptions C88_overlap_refuted.

(** The completion of connection 0, under way when connection 0 is disposed and connection 1 made, ends the
    subject: connection 1, which nobody disposed, delivers nothing and is never disposed of by the connectable observable;
    only its source's subscription is. *)
Definition se_scr (k : nat) : list (ev nat) := match k with 0 => [Done] | _ => [Next 10; Next 11; Done] end.
Definition se := rc se_scr [[UConnect; UDispose 0; UConnect]] 2 (ones 0 6 ++ ones 1 1 ++ ones 0 7 ++ ones 1 9 ++ ones 2 9).
Theorem C88_stale_end_refuted : exists tr c, gexec nstep (n_init se_scr, n_threads [[UConnect; UDispose 0; UConnect]] 2) tr c /\ gfinished c /\
  In (NOn 1) tr /\ ~ In (NOff 1) tr /\ shown 1 tr = [] /\ shown 0 tr = [Done] /\ after_off 0 false tr = [Done].
Proof.
  exists (fst se), (snd se). split; [apply gtol_sound|]. split; [intros t H; vm_compute in H; intuition|].
  vm_compute. repeat split; auto 10. intuition discriminate.
Qed.
Print Assumptions C88_stale_end_refuted.

(** connect, dispose in between, connect again from another thread; the second connection completes. *)
Definition cs_scr (k : nat) : list (ev nat) := match k with 0 => [Next 1; Next 2; Next 3] | _ => [Next 10; Done] end.
Definition cs := rc cs_scr [[UConnect; UDispose 0]; [UConnect]] 2 (ones 0 6 ++ ones 2 4 ++ ones 0 1 ++ ones 1 6 ++ ones 2 3 ++ ones 3 9).
Example C88_case : fst cs = [NOn 0; NKeep 0; NBeg 0 (Next 1); NEnd 0; NOff 0; NFree 0; NOn 1; NKeep 1; NBeg 0 (Next 2); NEnd 0;
                             NBeg 1 (Next 10); NEnd 1; NBeg 1 Done; NEnd 1; NFree 1; NOff 1].
Proof. vm_compute. reflexivity. Qed.
