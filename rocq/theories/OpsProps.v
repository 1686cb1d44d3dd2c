(** C04, C24-C28, C31: single-source operators and chains of them. *)
From Coq Require Import Permutation.
From Verif Require Import Base Machine MachineProofs OpsModel OpsSpec OpsProofs
  ObserverSpec ObserverModel ObserverProofs ChainModel ChainSpec ChainProofs.

(** A subscriber that just records. *)
Definition recorder {V} : machine V := leaf (fun _ _ => RCont).
(** What the recorder logged after events were pushed into operator [o]. *)
Definition observed {A B} (o : operator A B) (evs : list (ev A)) : list (ev B) :=
  o_log (snd (mrun (lift o recorder) (lift_init o recorder o_init) evs)).

(** ------------------------------------------------------------------ C24 *)
Theorem C24_map : forall A B (f : A -> res B), refines (map_op f) (map_spec f).
Proof. exact map_refines. Qed.
Print Assumptions C24_map.

Theorem C24_filter : forall A (p : A -> res bool), refines (filter_op p) (filter_spec p).
Proof. exact filter_refines. Qed.
Print Assumptions C24_filter.

Theorem C24_tap_passes : forall A (f : A -> res unit), refines (tap_op f) (tap_spec f).
Proof. exact tap_refines. Qed.
Print Assumptions C24_tap_passes.

(** tap's callbacks see each event once, in order: all of them unless the downstream ended. *)
Theorem C24_tap_callbacks : forall A (f : A -> res unit) D, lawful D -> forall (d : mst D) evs,
  let s := mrun (lift (tap_op f) D) (lift_init (tap_op f) D d) evs in
  exists n,
    fst s = firstn n (tap_seen f (vals evs) (term_list evs)) /\
    (n >= length (tap_seen f (vals evs) (term_list evs)) \/ mdisp D (snd s) = true).
Proof. intros A f D L d evs. exact (tap_log_gen A f D L evs [] d). Qed.
Print Assumptions C24_tap_callbacks.

(** With functions that never throw these are the ordinary list functions. *)
Theorem C24_map_total : forall A B (g : A -> B) vs t,
  map_spec (fun x => Ok (g x)) vs t = map Next (map g vs) ++ t.
Proof. induction vs as [|v vs IH]; intro t; cbn; congruence. Qed.
Theorem C24_filter_total : forall A (g : A -> bool) vs t,
  filter_spec (fun x => Ok (g x)) vs t = map Next (filter g vs) ++ t.
Proof. induction vs as [|v vs IH]; intro t; cbn; auto. destruct (g v); cbn; congruence. Qed.
Print Assumptions C24_map_total.
Print Assumptions C24_filter_total.

(** finally: observer.set_upstream(callback disposable d) (finally.hpp:34-39). The
    callback's disposable is disposed exactly once when the subscription has ended and
    not before. *)
Theorem C24_finally_once : forall (V : Type) (cb : list (ev V) -> V -> reaction) ox d cs,
  ~ In d (upstreams cs) ->
  (In CDispose cs \/ has_terminal (o_log (o_run cb None ox o_init (CUpstream d :: cs)))) ->
  count_occ Nat.eq_dec (o_rel (o_run cb None ox o_init (CUpstream d :: cs))) d = 1.
Proof.
  intros V cb ox d cs N H.
  rewrite (release_all cb None ox eq_refl (CUpstream d :: cs)).
  - cbn. destruct (Nat.eq_dec d d); [|congruence].
    f_equal. now apply count_occ_not_In.
  - destruct H; [left; now right | right; assumption].
Qed.
Print Assumptions C24_finally_once.

Example C24_ex : observed (map_op (fun x => if x =? 3 then Throw 5 else Ok (x * 2))) [Next 1; Next 2; Next 3; Next 4; Done]
  = [Next 2; Next 4; Err 5].
Proof. reflexivity. Qed.
Example C24_ex_finally :
  ~ In 9 (upstreams [CEv (Next 1); CUpstream 3; CEv (@Done nat)]) /\
  has_terminal (o_log (o_run (fun _ _ => RCont) None 0 o_init [CUpstream 9; CEv (Next 1); CUpstream 3; CEv (@Done nat)])).
Proof. split; [intros [H|[]]; discriminate | left; cbn; auto]. Qed.

(** ------------------------------------------------------------------ C25 *)
Theorem C25_take : forall A n, refines (@take_op A n) (take_spec n).
Proof. exact take_refines. Qed.
Print Assumptions C25_take.
Theorem C25_skip : forall A n, refines (@skip_op A n) (skip_spec n).
Proof. exact skip_refines. Qed.
Print Assumptions C25_skip.
Theorem C25_element_at : forall A oor i, refines (@element_at_op A oor i) (element_at_spec oor i).
Proof. exact element_at_refines. Qed.
Print Assumptions C25_element_at.
Theorem C25_first : forall A nee, refines (@first_op A nee) (first_spec nee).
Proof. exact first_refines. Qed.
Print Assumptions C25_first.
Theorem C25_last : forall A nee, refines (@last_op A nee) (last_spec nee).
Proof. exact last_refines. Qed.
Print Assumptions C25_last.
Theorem C25_take_while : forall A (p : A -> res bool), refines (take_while_op p) (take_while_spec p).
Proof. exact take_while_refines. Qed.
Print Assumptions C25_take_while.
(** take_last for a container whose reserve(n) yields a capacity of exactly n. *)
Theorem C25_take_last : forall A n, refines (@take_last_op A (take_last_cap reserve_exact n)) (take_last_spec n).
Proof. intros A n. exact (take_last_refines A n). Qed.
Print Assumptions C25_take_last.
(** For any reserve policy the operator behaves as take_last(capacity). *)
Theorem C25_take_last_any_capacity : forall A reserve n,
  refines (@take_last_op A (take_last_cap reserve n)) (take_last_spec (reserve n)).
Proof. intros A reserve n. exact (take_last_refines A (reserve n)). Qed.
Print Assumptions C25_take_last_any_capacity.
(** Finding: for bool values (std::vector<bool> rounds the capacity up to 64),
    take_last(1) delivers two values. *)
Theorem C25_take_last_vector_bool_refuted :
  exists n vs, observed (@take_last_op bool (take_last_cap reserve_vector_bool n)) (map Next vs ++ [Done])
               <> take_last_spec n vs [Done].
Proof. exists 1, [true; false]. vm_compute. discriminate. Qed.
Print Assumptions C25_take_last_vector_bool_refuted.

Example C25_ex_take : observed (take_op 2) [Next 1; Next 2; Next 3; Err 4] = [Next 1; Next 2; Done].
Proof. reflexivity. Qed.
Example C25_ex_take_last : observed (take_last_op 3) (map Next [1;2;3;4;5;6;7;8] ++ [Done]) = map Next [6;7;8] ++ [Done].
Proof. reflexivity. Qed.
Example C25_ex_element_at : observed (element_at_op 9 2) [Next 1; Next 2; Next 3; Next 4] = [Next 3; Done].
Proof. reflexivity. Qed.

(** ------------------------------------------------------------------ C26 *)
Theorem C26_distinct : forall A (eqb : A -> A -> bool),
  (forall x y, eqb x y = true <-> x = y) -> refines (distinct_op eqb) (distinct_spec eqb).
Proof. exact distinct_refines. Qed.
Print Assumptions C26_distinct.

(** first_occurrences really is: same elements, no duplicates, order of first appearance. *)
Theorem C26_first_occurrences : forall A (eqb : A -> A -> bool),
  (forall x y, eqb x y = true <-> x = y) -> forall vs,
  NoDup (first_occurrences eqb vs) /\
  (forall x, In x (first_occurrences eqb vs) <-> In x vs) /\
  (forall v r, exists r', first_occurrences eqb (v :: r) = v :: r').
Proof.
  intros A eqb EQ vs.
  assert (I: forall vs x, In x (first_occurrences eqb vs) <-> In x vs).
  { clear vs. induction vs as [|v vs IH]; intro x; cbn; [tauto|].
    rewrite filter_In, IH. split.
    - intros [H|[H _]]; auto.
    - intros [H|H]; auto. destruct (eqb x v) eqn:E; [left; symmetry; now apply EQ|].
      right. split; auto. }
  repeat split; try apply I.
  - induction vs as [|v vs IH]; cbn; constructor.
    + rewrite filter_In. intros [_ H]. replace (eqb v v) with true in H by (symmetry; now apply EQ). discriminate.
    + now apply NoDup_filter.
  - intros v r. cbn. eauto.
Qed.
Print Assumptions C26_first_occurrences.

Theorem C26_distinct_until_changed : forall A (cmp : A -> A -> res bool), refines (duc_op cmp) (duc_spec cmp).
Proof. exact duc_refines. Qed.
Print Assumptions C26_distinct_until_changed.

Example C26_ex : observed (distinct_op Nat.eqb) (map Next [1;2;1;3;2;4] ++ [Done]) = map Next [1;2;3;4] ++ [Done].
Proof. reflexivity. Qed.
Example C26_ex_hyp : forall x y, Nat.eqb x y = true <-> x = y.
Proof. exact Nat.eqb_eq. Qed.

(** ------------------------------------------------------------------ C27 *)
Theorem C27_scan : forall A B (f : B -> A -> res B) seed, refines (scan_op f seed) (scan_spec f seed).
Proof. exact scan_refines. Qed.
Print Assumptions C27_scan.
Theorem C27_scan_no_seed : forall A (f : A -> A -> res A), refines (scan1_op f) (scan1_spec f).
Proof. exact scan1_refines. Qed.
Print Assumptions C27_scan_no_seed.
Theorem C27_reduce : forall A B (f : B -> A -> res B) seed, refines (reduce_op f seed) (reduce_spec f seed).
Proof. exact reduce_refines. Qed.
Print Assumptions C27_reduce.
Theorem C27_reduce_no_seed : forall A (f : A -> A -> res A), refines (reduce1_op f) (reduce1_spec f).
Proof. exact reduce1_refines. Qed.
Print Assumptions C27_reduce_no_seed.

(** With a total accumulator: the i-th value of scan is the fold of the first i source
    values, and reduce yields the fold of all. *)
Theorem C27_scan_is_fold : forall A B (g : B -> A -> B) seed vs i, i <= length vs ->
  nth_error (scan_spec (fun b a => Ok (g b a)) seed vs []) i = Some (Next (fold_left g (firstn i vs) seed)).
Proof.
  intros A B g seed vs i. revert seed i. unfold scan_spec.
  induction vs as [|v vs IH]; intros seed [|i] H; cbn in *; try lia; auto.
  apply (IH (g seed v) i). lia.
Qed.
Print Assumptions C27_scan_is_fold.
Theorem C27_reduce_is_fold : forall A B (g : B -> A -> B) seed vs,
  reduce_spec (fun b a => Ok (g b a)) seed vs [Done] = [Next (fold_left g vs seed); Done].
Proof.
  intros. unfold reduce_spec.
  assert (E: foldr_res (fun b a => Ok (g b a)) seed vs = Ok (fold_left g vs seed)).
  { revert seed. induction vs as [|v vs IH]; intro seed; cbn; auto. }
  now rewrite E.
Qed.
Print Assumptions C27_reduce_is_fold.

Example C27_ex : observed (scan_op (fun a b => if b =? 9 then Throw 1 else Ok (a + b)) 10) (map Next [1;2;9;3] ++ [Done])
  = map Next [10;11;13] ++ [Err 1].
Proof. reflexivity. Qed.

(** ------------------------------------------------------------------ C28 *)
Theorem C28_buffer : forall A n, exists spec,
  refines (@buffer_op A (buffer_cap reserve_exact n)) spec /\
  forall vs t, buffer_rel (Nat.max 1 n) vs t (spec vs t).
Proof.
  intros A n. exists (buffer_fun (Nat.max 1 n) []). split.
  - apply (buffer_fun_refines A (Nat.max 1 n)). lia.
  - intros vs t. apply buffer_fun_rel. lia.
Qed.
Print Assumptions C28_buffer.

(** buffer_rel determines the output. *)
Theorem C28_buffer_unique : forall A n vs (t o1 o2 : list (ev (list A))),
  buffer_rel n vs t o1 -> buffer_rel n vs t o2 -> o1 = o2.
Proof.
  intros A n vs t o1 o2 (f1 & r1 & E1 & F1 & L1 & ->) (f2 & r2 & E2 & F2 & L2 & ->).
  assert (H: f1 = f2 /\ r1 = r2).
  { revert vs f2 F2 E1 E2. induction F1 as [|c f1 Hc F1 IH]; intros vs f2 F2 E1 E2.
    - cbn in E1. subst vs. destruct F2 as [|c2 f2 Hc2 F2].
      + auto.
      + cbn in E2. apply (f_equal (@length A)) in E2. rewrite !app_length in E2. lia.
    - destruct F2 as [|c2 f2 Hc2 F2].
      + cbn in *. subst vs. apply (f_equal (@length A)) in E2. rewrite !app_length in E2. lia.
      + cbn in *. subst vs. rewrite <- !app_assoc in E2.
        assert (C: c = c2).
        { apply (f_equal (firstn n)) in E2.
          rewrite !firstn_app, Hc, Hc2, Nat.sub_diag, !firstn_O, !app_nil_r in E2.
          rewrite !firstn_all2 in E2 by lia. exact E2. }
        subst c2. apply app_inv_head in E2.
        destruct (IH _ f2 F2 eq_refl E2). subst; auto. }
  destruct H; subst; reflexivity.
Qed.
Print Assumptions C28_buffer_unique.

(** Finding: for bool values std::vector<bool>'s capacity after reserve(1) is 64, so
    buffer(1) does not deliver chunks of one value. *)
Theorem C28_vector_bool_refuted :
  exists n vs, ~ buffer_rel (Nat.max 1 n) vs [Done]
     (observed (@buffer_op bool (buffer_cap reserve_vector_bool n)) (map Next vs ++ [Done])).
Proof.
  exists 1, [true; false]. vm_compute.
  intros (full & rest & E & F & L & O).
  destruct full as [|c full].
  - cbn in *. subst rest. cbn in L. lia.
  - inversion F as [|x y H1 H2]; subst. cbn in O. injection O as O1 O2.
    rewrite <- O1 in H1. cbn in H1. lia.
Qed.
Print Assumptions C28_vector_bool_refuted.

Example C28_ex : observed (buffer_op (buffer_cap reserve_exact 2)) (map Next [1;2;3;4;5] ++ [Done]) =
  [Next [1;2]; Next [3;4]; Next [5]; Done].
Proof. reflexivity. Qed.

(** ------------------------------------------------------------------ C31 *)
Theorem C31_throttle : forall A dur, refines (@throttle_op A dur) (throttle_spec dur).
Proof. exact throttle_refines. Qed.
Print Assumptions C31_throttle.

Example C31_ex : observed (throttle_op 10) [Next (0, 1); Next (5, 2); Next (10, 3); Next (19, 4); Next (20, 5); Done]
  = [Next 1; Next 3; Next 5; Done].
Proof. reflexivity. Qed.

(** ------------------------------------------------------------------ C04 *)
(** The downstream of a chain ends exactly as if it had been given the composed
    specification's events - for every chain, every lawful downstream, every input. *)
Theorem C04_chain : forall A C (c : chain A C) (D : machine C), lawful D -> forall d evs,
  bottom c D (mrun (build c D) (build_init c D d) evs) = mrun D d (chain_spec c evs).
Proof. exact build_refines. Qed.
Print Assumptions C04_chain.

(** ... whose events are grammatical ... *)
Theorem C04_chain_grammar : forall A B C (o : libop A B) (c : chain B C) evs,
  grammatical (chain_spec (ChCons A B C o c) evs).
Proof. exact chain_spec_gram_cons. Qed.
Print Assumptions C04_chain_grammar.

(** ... every observer of the chain is lawful, hence a disposed chain ignores
    everything and says so at its top ... *)
Theorem C04_chain_dead : forall A C (c : chain A C) (D : machine C), lawful D ->
  forall s, mdisp D (bottom c D s) = true ->
  mdisp (build c D) s = true /\ forall evs, mrun (build c D) s evs = s.
Proof.
  intros A C c D L s H. rewrite build_disp. split; auto.
  intros evs. apply mrun_dead; auto using build_lawful. now rewrite build_disp.
Qed.
Print Assumptions C04_chain_dead.

(** ... and a terminal event or an unsubscription leaves the chain disposed. *)
Theorem C04_chain_ends : forall A C (c : chain A C) (D : machine C), lawful D -> forall s,
  mdisp (build c D) (mkill (build c D) s) = true /\
  forall e, is_term e = true -> mdisp (build c D) (mstep (build c D) s e) = true.
Proof.
  intros A C c D L s. pose proof (build_lawful A C c D L) as LB. split.
  - apply law_kill; auto.
  - intros; apply law_term; auto.
Qed.
Print Assumptions C04_chain_ends.

(** In particular a user observer with arbitrary callbacks (throwing, unsubscribing) at
    the end of any chain sees a grammatical sequence, and with ordinary callbacks
    exactly the composed list function. *)
Theorem C04_chain_user : forall A B C (o : libop A B) (c : chain B C) cb evs,
  let s := mrun (build (ChCons A B C o c) (leaf cb)) (build_init (ChCons A B C o c) (leaf cb) o_init) evs in
  grammatical (o_log (bottom (ChCons A B C o c) (leaf cb) s)) /\
  (well_behaved cb -> o_log (bottom (ChCons A B C o c) (leaf cb) s) = chain_spec (ChCons A B C o c) evs).
Proof.
  intros A B C o c cb evs s. unfold s. rewrite (build_refines _ _ _ _ (leaf_lawful C cb)).
  rewrite leaf_run. split.
  - apply grammar_ok.
  - intro W. rewrite (exact_delivery cb None 0 eq_refl W). apply live_events_gram.
    apply chain_spec_gram_cons.
Qed.
Print Assumptions C04_chain_user.

Definition ex_chain : chain nat nat :=
  ChCons _ _ _ (LFilter nat (fun x => Ok (Nat.even x)))
    (ChCons _ _ _ (LScan nat nat (fun a b => Ok (a + b)) 0)
      (ChCons _ _ _ (LTake nat 3) (ChNil nat))).
Example C04_ex : chain_spec ex_chain (map Next [1;2;3;4;5;6] ++ [Done]) = map Next [0;2;6] ++ [Done].
Proof. reflexivity. Qed.
Example C04_ex_run :
  o_log (bottom ex_chain recorder (mrun (build ex_chain recorder) (build_init ex_chain recorder o_init)
     (map Next [1;2;3;4;5;6] ++ [Done]))) = map Next [0;2;6] ++ [Done].
Proof. reflexivity. Qed.
Example C04_ex_lawful : lawful (leaf (fun (h : list (ev nat)) v => if v =? 2 then RThrow 1 else RDispose)).
Proof. apply leaf_lawful. Qed.
