(** C32 (everything completes) and C77: flat_map (rpp/operators/flat_map.hpp). *)
From Verif Require Import Base Machine MachineProofs Concur ObserverModel ChainModel ChainProofs.
From Verif Require Import MultiSpec MultiModel MultiLin MultiCount MultiProofs MultiRace MultiProps FlatProofs.

(** merge of n inner observables with the values [vss], all completing: whatever the
    interleaving, by the time all calls have returned the observer has got all values of all of
    them, those of each one in order, then the completion, and nothing else. *)
Theorem C32_merge_complete : forall V (D : machine V), lawful D -> forall d0 (vss : list (list V)) progs tr c,
  map (map fst) progs = (repeat (Next (inl tt)) (length vss) ++ [Done]) :: map (fun vs => map (fun v => Next (inr v)) vs ++ [Done]) vss ->
  gexec (istep (merge_op V) D (fun _ => [])) (g_init (merge_op V) D d0, threads (merge_op V) progs) tr c -> gfinished c ->
  exists w : list (nat * V), (forall j, map snd (filter (fun x => fst x =? j) w) = nth j vss []) /\
    g_down (fst c) = mrun D d0 (map Next (map snd w) ++ [Done]).
Proof.
  intros V D L d0 vss progs tr c P E F. destruct (C32_merge V D L d0 progs tr c E) as (h & LI & DN & LK).
  assert (A : forall i, evs_of i h = nth i (all_progs vss) []).
  { intro i. unfold all_progs. rewrite <- P. eapply all_in; [exact LI|]. rewrite (calls_done _ _ _ _ _ _ E F i). f_equal. symmetry. exact (map_nth (map fst) progs [] i). }
  destruct (merge_all_hist V vss h A) as (O & W). exists (tagged h). split; auto. rewrite <- O. auto.
Qed.
Print Assumptions C32_merge_complete.

(** ** flat_map *)
(** map(f) | merge(), flat_map.hpp:25-42.  [p0]: the events of the source; [f v]: the calls made
    by the observable which the user's function returns for v, or the exception it throws. *)
Section Flat.
  Context {X V : Type} (f : X -> res (list (ev V))).
  (** What map's observer passes on to merge's (map.hpp:30-38, C24). *)
  Definition outer (e : ev X) : ev (unit + V) :=
    match e with
    | Next v => match f v with Ok _ => Next (inl tt) | Throw x => Err x end
    | Err x => Err x
    | Done => Done
    end.
  (** The observables that are subscribed: those returned before the source ends or the function
      throws. *)
  Fixpoint inners (p0 : list (ev X)) : list (list (ev V)) :=
    match p0 with Next v :: r => match f v with Ok p => p :: inners r | Throw _ => [] end | _ => [] end.
  Definition as_inner (e : ev V) : ev (unit + V) := match e with Next v => Next (inr v) | Err x => Err x | Done => Done end.
  Definition flat_progs (p0 : list (ev X)) : list (list (ev (unit + V))) :=
    map outer p0 :: map (map as_inner) (inners p0).
End Flat.

(** Whatever the source and the returned observables do, in whatever interleaving: the observer
    gets what merge makes of a history consisting of the source's events (a value for which the
    function throws being an error) and the events of the returned observables, each in order and
    at a moment within its call; once all calls have returned it contains all of them. *)
Theorem C77_flat_map : forall X V (f : X -> res (list (ev V))) (D : machine V), lawful D -> forall d0 p0 progs tr c,
  map (map fst) progs = flat_progs f p0 ->
  gexec (istep (merge_op V) D (fun _ => [])) (g_init (merge_op V) D d0, threads (merge_op V) progs) tr c ->
  exists h, linearized (flat_progs f p0) tr h /\
    (g_lock (fst c) = false -> g_down (fst c) = mrun D d0 (outs merge_out h)) /\
    (gfinished c -> g_down (fst c) = mrun D d0 (outs merge_out h) /\ forall i, evs_of i h = nth i (flat_progs f p0) []).
Proof.
  intros X V f D L d0 p0 progs tr c P E. destruct (C32_merge V D L d0 progs tr c E) as (h & LI & DN & LK). rewrite P in LI.
  exists h. split; auto. split; auto. intro F. split; auto. intro i.
  eapply all_in; [exact LI|]. rewrite (calls_done _ _ _ _ _ _ E F i), <- P. f_equal. symmetry. exact (map_nth (map fst) progs [] i).
Qed.
Print Assumptions C77_flat_map.

(** If the source completes after xs and the function returns for each x an observable that
    completes after [vals x], the observer gets all values, those of each returned observable in
    order, then the completion. *)
Theorem C77_complete : forall X V (f : X -> res (list (ev V))) (D : machine V), lawful D -> forall d0 (xs : list X) (vals : X -> list V) progs tr c,
  (forall x, In x xs -> f x = Ok (map Next (vals x) ++ [Done])) ->
  map (map fst) progs = flat_progs f (map Next xs ++ [Done]) ->
  gexec (istep (merge_op V) D (fun _ => [])) (g_init (merge_op V) D d0, threads (merge_op V) progs) tr c -> gfinished c ->
  exists w : list (nat * V), (forall j, map snd (filter (fun x => fst x =? j) w) = nth j (map vals xs) []) /\
    g_down (fst c) = mrun D d0 (map Next (map snd w) ++ [Done]).
Proof.
  intros X V f D L d0 xs vals progs tr c FX P E F.
  eapply (C32_merge_complete V D L d0 (map vals xs)); eauto. rewrite P. unfold flat_progs. rewrite map_app, map_length. f_equal.
  - f_equal. clear -FX. induction xs as [|x xs IH]; cbn; auto. rewrite (FX x) by now left. f_equal. apply IH. intros y I. apply FX. now right.
  - clear -FX. induction xs as [|x xs IH]; cbn; auto.
    rewrite (FX x) by now left. cbn [app map]. f_equal; [|apply IH; intros y I; apply FX; now right].
    rewrite map_app, map_map. reflexivity.
Qed.
Print Assumptions C77_complete.

(** If the source or a returned observable fails ([cut]: events after a terminal one do not
    count) or the function throws, the observer gets values and then one of these errors, no
    completion. *)
Lemma fail_outer : forall X V (f : X -> res (list (ev V))) (xs : list X) t, (exists x, t = [Err x] \/ exists v, In v xs /\ f v = Throw x) ->
  exists x, In (Err x) (cut (map (outer f) (map Next xs ++ t))).
Proof.
  intros X V f. induction xs as [|v xs IH]; intros t (x & H).
  - destruct H as [->|(v & [] & _)]. exists x. now left.
  - cbn [map app]. cbn [outer]. destruct (f v) as [p|z] eqn:F; [|exists z; now left].
    destruct (IH t) as (y & Y); [|exists y; now right]. exists x. destruct H as [->|(w & [<-|I] & Q)]; [now left|congruence|right; eauto].
Qed.
Lemma fail_outer_inv : forall X V (f : X -> res (list (ev V))) (xs : list X) t x, (t = [] \/ exists e, is_term e = true /\ t = [e]) ->
  In (Err x) (cut (map (outer f) (map Next xs ++ t))) -> t = [Err x] \/ exists v, In v xs /\ f v = Throw x.
Proof.
  intros X V f. induction xs as [|v xs IH]; intros t x T H.
  - cbn in H. destruct T as [->|(e & E & ->)]; [destruct H|]. destruct e as [w|y|]; [discriminate| |]; cbn in H; destruct H as [H|[]]; [|discriminate].
    inversion H; subst. now left.
  - cbn [map app] in H. cbn [outer] in H. destruct (f v) as [p|z] eqn:F; cbn in H.
    + destruct H as [H|H]; [discriminate|]. destruct (IH t x T H) as [->|(w & I & Q)]; [now left|]. right. exists w. split; auto. now right.
    + destruct H as [H|[]]. inversion H; subst. right. exists v. split; auto. now left.
Qed.
Lemma inners_ok : forall X V (f : X -> res (list (ev V))) (xs : list X) t v p, (t = [] \/ exists e, is_term e = true /\ t = [e]) -> In v xs -> f v = Ok p ->
  (exists w x, In w xs /\ f w = Throw x) \/ In p (inners f (map Next xs ++ t)).
Proof.
  intros X V f. induction xs as [|w xs IH]; intros t v p T I F; [destruct I|]. cbn [map app inners].
  destruct (f w) as [q|z] eqn:W; [|left; exists w, z; split; auto; now left]. destruct I as [->|I]; [right; left; congruence|].
  destruct (IH t v p T I F) as [(w' & x & I' & Q)|R]; [left; exists w', x; split; auto; now right|right; now right].
Qed.
Lemma inners_from : forall X V (f : X -> res (list (ev V))) (xs : list X) t p, (t = [] \/ exists e, is_term e = true /\ t = [e]) ->
  In p (inners f (map Next xs ++ t)) -> exists v, In v xs /\ f v = Ok p.
Proof.
  intros X V f. induction xs as [|w xs IH]; intros t p T I.
  - destruct T as [->|(e & E & ->)]; [destruct I|]. destruct e; [discriminate|destruct I..].
  - cbn [map app inners] in I. destruct (f w) as [q|z] eqn:W; [|destruct I]. destruct I as [<-|I]; [exists w; split; auto; now left|].
    destruct (IH t p T I) as (v & J & Q). exists v. split; auto. now right.
Qed.
Lemma cut_as : forall V (p : list (ev V)) x, In (Err x) (cut (map as_inner p)) <-> In (Err x) (cut p).
Proof.
  induction p as [|e p IH]; intro x; cbn; [tauto|]. destruct e as [v|y|]; cbn.
  - rewrite IH. split; intros [H|H]; try discriminate; auto.
  - split; intros [H|[]]; inversion H; subst; auto.
  - split; intros [H|[]]; discriminate.
Qed.

Theorem C77_error : forall X V (f : X -> res (list (ev V))) (D : machine V), lawful D -> forall d0 (xs : list X) t progs tr c,
  let fails x := t = [Err x] \/ exists v, In v xs /\ (f v = Throw x \/ exists p, f v = Ok p /\ In (Err x) (cut p)) in
  (t = [] \/ exists e, is_term e = true /\ t = [e]) -> (exists x, fails x) ->
  map (map fst) progs = flat_progs f (map Next xs ++ t) ->
  gexec (istep (merge_op V) D (fun _ => [])) (g_init (merge_op V) D d0, threads (merge_op V) progs) tr c -> gfinished c ->
  exists vs x, fails x /\ g_down (fst c) = mrun D d0 (map Next vs ++ [Err x]).
Proof.
  intros X V f D L d0 xs t progs tr c fails T FA P E F.
  destruct (C77_flat_map X V f D L d0 _ progs tr c P E) as (h & _ & _ & FIN). destruct (FIN F) as (DN & A). clear FIN.
  set (p0 := map Next xs ++ t) in *. set (n := length (inners f p0)).
  assert (EL : forall i, evs_of i (live h) = cut (nth i (flat_progs f p0) [])) by (intro i; unfold live; rewrite evs_live, A; reflexivity).
  assert (EX : exists k y, In (Err y) (cut (nth k (flat_progs f p0) []))).
  { assert (OUT : (exists x, t = [Err x] \/ exists v, In v xs /\ f v = Throw x) -> exists k y, In (Err y) (cut (nth k (flat_progs f p0) []))).
    { intro H. destruct (fail_outer X V f xs t H) as (y & Y). exists 0, y. exact Y. }
    destruct FA as (x & [H|(v & I & [H|(p & Q & H)])]); [apply OUT; eauto|apply OUT; eauto|].
    destruct (inners_ok X V f xs t v p T I Q) as [(w & z & W1 & W2)|IN]; [apply OUT; eauto|].
    apply (In_nth _ _ []) in IN as (j & J & N). exists (S j), x. unfold flat_progs. cbn [nth].
    rewrite (nth_indep _ [] (map as_inner [])) by (now rewrite map_length). rewrite map_nth. fold p0 in N. rewrite N. now apply cut_as. }
  destruct EX as (k & y & FAIL).
  destruct (merge_fail V (live h) n) as (vs & i & x & r & O & I).
  - intro i. rewrite EL. apply cut_wfs.
  - intros i G. rewrite EL, nth_overflow; auto. unfold flat_progs. cbn [length]. rewrite map_length. exact G.
  - intro I. rewrite opened_evs, EL. apply evs_in in I. rewrite EL in I. unfold flat_progs in *. cbn [nth] in *. unfold n, p0 in *. clear - I T.
    induction xs as [|x xs IH]; cbn in *.
    + destruct T as [->|(e & H & ->)]; [destruct I|]. destruct e as [v| |]; try discriminate; reflexivity.
    + destruct (f x) as [p|z]; cbn in *; [|destruct I as [I|[]]; discriminate]. destruct I as [I|I]; [discriminate|].
      f_equal. now apply IH.
  - apply existsb_exists. exists (k, Err y). split; auto. apply evs_in. now rewrite EL.
  - exists vs, x. split.
    + apply evs_in in I. rewrite EL in I. unfold fails. destruct i as [|i].
      * destruct (fail_outer_inv X V f xs t x T I) as [H|(v & J & H)]; [now left|right; eauto].
      * unfold flat_progs in I. cbn [nth] in I. destruct (Nat.lt_ge_cases i (length (inners f p0))) as [LT|GE]; [|rewrite nth_overflow in I; [destruct I|now rewrite map_length]].
        rewrite (nth_indep _ [] (map as_inner [])) in I by (now rewrite map_length). rewrite map_nth in I. apply (proj1 (cut_as _ _ _)) in I.
        destruct (inners_from X V f xs t (nth i (inners f p0) []) T) as (v & J & Q); [now apply nth_In|]. right. exists v. split; auto. right. eauto.
    + rewrite DN. unfold outs. rewrite O.
      change (map Next vs ++ Err x :: r) with (map Next vs ++ [Err x] ++ r). rewrite app_assoc, mrun_app. apply mrun_dead; auto.
      rewrite mrun_app. apply (law_term _ L). reflexivity.
Qed.
Print Assumptions C77_error.

Definition flat_ex_f (x : nat) : res (list (ev nat)) := if x =? 9 then Throw 7 else Ok [Next (10 * x); Next (10 * x + 1); Done].
Definition flat_ex (p : list (ev nat)) := map alive (flat_progs flat_ex_f p).
Definition flat_run (p : list (ev nat)) (sched : list (nat * nat)) := gtol (istep (merge_op nat) plain (fun _ => [])) (reps sched)
  (g_init (merge_op nat) plain o_init, threads (merge_op nat) (flat_ex p)).
Example C77_case : let r := flat_run [Next 1; Next 2; Done] [(0, 10); (1, 10); (2, 6); (1, 3); (2, 3); (0, 20); (2, 20); (1, 30)] in
  gexec (istep (merge_op nat) plain (fun _ => [])) (g_init (merge_op nat) plain o_init, threads (merge_op nat) (flat_ex [Next 1; Next 2; Done])) (fst r) (snd r) /\
  snd (snd r) = [[]; []; []] /\ o_log (g_down (fst (snd r))) = [Next 10; Next 20; Next 21; Next 11; Done].
Proof. intro r. split; [apply gtol_sound|]. vm_compute. split; reflexivity. Qed.
Example C77_throw_case : let r := flat_run [Next 1; Next 9; Next 2] [(0, 6); (1, 10); (0, 50); (1, 30); (0, 30)] in
  gexec (istep (merge_op nat) plain (fun _ => [])) (g_init (merge_op nat) plain o_init, threads (merge_op nat) (flat_ex [Next 1; Next 9; Next 2])) (fst r) (snd r) /\
  o_log (g_down (fst (snd r))) = [Next 10; Err 7].
Proof. intro r. split; [apply gtol_sound|]. vm_compute. reflexivity. Qed.
