(** Final statements for the static choice of the place for upstream disposables (C65) and
    for the flag that goes with it (C66). *)
From Verif Require Import Base Machine MachineProofs Concur ObserverModel ChainModel ChainProofs.
From Verif Require Import MultiSpec MultiLin MultiRace MultiProps OpsModel DelaySpec DelayModel.
From Verif Require Import CapSpec CapModel CapProofs.

(** However observables and operators are combined, a subscription never hands an observer
    more disposables than the strategy chosen for it holds; the same for the composite
    disposable subscribe_with_disposable creates (observable.hpp:147,162,176,219) and for
    every fixed-size composite created inside. *)
Theorem C65_capacity : forall o ls n, calls o ls n ->
  fits (sel_cap (expected o)) n /\ fits (sel_container (expected o)) n /\
  (forall cap k, In (cap, k) ls -> fits cap k).
Proof.
  intros o ls n C. destruct (calls_fit o ls n C) as (F & A). split; auto. split; [now apply fits_container|].
  intros cap k I. unfold fit_all in A. rewrite Forall_forall in A. exact (A _ I).
Qed.
Print Assumptions C65_capacity.

(** So the subscribed observer is indistinguishable from one whose container grows: no
    more_disposables_than_expected error ever reaches its on_error. *)
Theorem C65_observer : forall V (cb : list (ev V) -> V -> reaction) ox o ls n cs, calls o ls n -> upstreams cs <= n ->
  o_run cb (sel_cap (expected o)) ox o_init cs = o_run cb None ox o_init cs.
Proof.
  intros V cb ox o ls n cs C L. destruct (calls_fit o ls n C) as (F & _).
  destruct (sel_cap (expected o)) as [c|]; auto. cbn in F. apply observer_same. cbn. lia.
Qed.
Print Assumptions C65_observer.

(** Nothing is wasted either: some subscription needs every place. *)
Theorem C65_tight : forall o c, sel_cap (expected o) = Some c -> exists ls, calls o ls c.
Proof. exact fixed_tight. Qed.
Print Assumptions C65_tight.

(** publish().ref_count() | finally | debounce | map, blocking: five places, all used; one more
    disposable would end the subscription with an error. *)
Definition cap_ex : observable := OBlocking (OPass PMap (ODebounce (OFinally (ORefCount OSubject)))).
Example C65_case : sel_cap (expected cap_ex) = Some 5 /\ calls cap_ex [] 5 /\
  (forall ls, ~ calls cap_ex ls 6) /\
  o_log (o_run (V:=nat) (fun _ _ => RCont) (sel_cap (expected cap_ex)) 99 o_init (map CUpstream [1; 2; 3; 4; 5; 6])) = [Err 99].
Proof.
  split; auto. split.
  - apply (CBlocking _ [] 4). apply CPass. apply (CDebounce _ [] 3), (CFinally _ [] 2), (CRefCount _ [] 1), CSubject.
  - split; auto. intros ls C. destruct (C65_capacity _ _ _ C) as (F & _). cbn in F. lia.
Qed.
(** A timeout above it: its composite has the five places. *)
Example C65_case_timeout : calls (OTimeout OSimple cap_ex) [(Some 5, 5)] 1.
Proof.
  apply (CTimeout OSimple cap_ex [] 0 [] 5); [constructor|]. apply C65_case.
Qed.

(** C66.  The flag of an observer is only an atomic variable when the selector says so.
    [flag_race]: two threads are at steps of which one reads the flag of the downstream
    observer and the other, by completing it, sets it. *)
Definition flag_race {V} (D : machine V) clear sync delay (c : dst D * list (list (ditem (V:=V)))) : Prop :=
  exists i j ri rj own e v, i <> j /\
    nth_error (snd c) i = Some (YSrc :: ri) /\ nth_error (snd c) j = Some (YCall e own :: rj) /\
    (exists r, y_src (fst c) = Next v :: r) /\ y_fin (fst c) = false /\
    exists s' is ls, ystep D clear sync delay (fst c) (YCall e own) = Some (s', is, ls) /\
      mdisp D (y_d (fst c)) = false /\ mdisp D (y_d s') = true.

(** just(1, 2, 3) | observe_on(new_thread) (or delay) | take(1): the strategy is not atomic,
    and the source's thread reads the flag (delay.hpp:78-81) while the worker's thread sets it. *)
Definition fr_d : machine nat := lift (take_op 1) plain.
Definition fr_obs : observable := OPass PTake (OPass PDelay OSimple).
Definition fr_init := (d_init fr_d [Next 1; Next 2; Next 3; Done] (lift_init (take_op 1) plain o_init), d_threads (V:=nat) 1 [] 0).
Definition fr_ex clear := gtol (ystep fr_d clear false 0) (reps [(0, 2); (1, 3)]) fr_init.
Theorem C66_flag_race_refuted : sel_atomic (expected fr_obs) = false /\
  forall clear, exists tr c, gexec (ystep fr_d clear false 0) fr_init tr c /\ flag_race fr_d clear false 0 c.
Proof.
  split; auto. intro clear. exists (fst (fr_ex clear)), (snd (fr_ex clear)). split; [apply gtol_sound|].
  exists 0, 1, [], [YWork], true, (Next 1), 2. split; [discriminate|].
  destruct clear; vm_compute; repeat split; eauto; do 3 eexists; split; [reflexivity| |reflexivity|]; auto.
Qed.
Print Assumptions C66_flag_race_refuted.

(** Where the flag is atomic: exactly the observables whose selector does not come from a plain
    source or from one of the operators with a single disposable of their own. *)
Fixpoint root (o : observable) : observable :=
  match o with
  | ODefer o | ORefCount o | OBlocking o | OPass _ o | OFinally o | ODebounce o => root o
  | _ => o
  end.
Theorem C66_mode_partial : forall o,
  sel_atomic (expected o) = false <-> root o = OSimple \/ exists g o', root o = OSingle g o'.
Proof.
  assert (A : forall s k, sel_atomic (sel_add s k) = sel_atomic s) by (intros [p a| |[|m] a] k; auto).
  fix IH 1. intros [| |o| | | | |o|o|o|o1 o2|p o|o|o|g o|os o|os o|u o|f o|f o]; cbn [expected root];
    rewrite ?A; try apply IH; cbn; split; eauto; try discriminate; intros [H|(g' & o' & H)]; discriminate.
Qed.
Print Assumptions C66_mode_partial.
Example C66_case : sel_atomic (expected (OPass PTake (OPass PDelay OSubject))) = true /\
  sel_atomic (expected (ODebounce (OPass PDelay (OSingle GMerge OSubject)))) = false.
Proof. split; reflexivity. Qed.
