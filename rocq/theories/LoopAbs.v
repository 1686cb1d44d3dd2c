(** A scheduler loop in the abstract: tasks are in the queue or in somebody's hands.
    The three concrete loops are shown to make only such steps; what is common to them is
    proved here. *)
From Coq Require Import ZArith Permutation.
From Verif Require Import Base Concur QueueSpec QueueProofs SchedSpec SchedOrder LoopSpec LoopBase.
Open Scope Z_scope.

Inductive hand := HPicked (t : task) | HRun (t : task) | HRes (t : task) | HErr (t : task).
Definition hand_task (h : hand) : task := match h with HPicked t | HRun t | HRes t | HErr t => t end.

Record astate := AState { a_clock : Z; a_queue : list task; a_hands : list hand; a_dead : list nat; a_next : nat; a_flag : bool }.

Definition misc (e : lev) : Prop :=
  match e with LFresh _ | LStop | LExit | LAdv _ | LEnter _ | LLeave _ | LBy _ => True | _ => False end.

Inductive astep : astate -> list ltev -> astate -> Prop :=
| A_call : forall c q hs d n f v h k code x,
    astep (AState c q hs d n f) [(c, LCall v n h k x)] (AState c (t_ins (Task n h k code 0 x x) q) hs d (S n) f)
| A_pick : forall c t q l1 l2 d n f, ~ In (t_h t) d -> t_tp t <= c ->
    astep (AState c (t :: q) (l1 ++ l2) d n f) [(c, LPick (t_id t))] (AState c q (l1 ++ HPicked t :: l2) d n f)
| A_dropq : forall c t q hs d n f, In (t_h t) d ->
    astep (AState c (t :: q) hs d n f) [(c, LDrop (t_id t))] (AState c q hs d n f)
| A_droph : forall c q l1 t l2 d n f, In (t_h t) d ->
    astep (AState c q (l1 ++ HPicked t :: l2) d n f) [(c, LDrop (t_id t))] (AState c q (l1 ++ l2) d n f)
| A_start : forall c q l1 t l2 d n f,
    astep (AState c q (l1 ++ HPicked t :: l2) d n f) [(c, LStart (t_id t))] (AState c q (l1 ++ HRun t :: l2) d n f)
| A_stop : forall c q l1 t l2 d n f,
    astep (AState c q (l1 ++ HRun t :: l2) d n f) [(c, LEnd (t_id t) RStop)] (AState c q (l1 ++ l2) d n f)
| A_throw : forall c q l1 t l2 d n f,
    astep (AState c q (l1 ++ HRun t :: l2) d n f) [(c, LEnd (t_id t) RThrow)] (AState c q (l1 ++ HErr t :: l2) d n f)
| A_err : forall c q l1 t l2 d n f,
    astep (AState c q (l1 ++ HErr t :: l2) d n f) [(c, LErr (t_id t) (t_h t))] (AState c q (l1 ++ l2) d n f)
| A_ret : forall c q l1 t l2 d n f v,
    astep (AState c q (l1 ++ HRun t :: l2) d n f) [(c, LEnd (t_id t) (RAgain v))]
          (AState c q (l1 ++ HRes (ran c t v) :: l2) d n f)
| A_dropr : forall c q l1 t l2 d n f, In (t_h t) d ->
    astep (AState c q (l1 ++ HRes t :: l2) d n f) [(c, LDrop (t_id t))] (AState c q (l1 ++ l2) d n f)
| A_again : forall c q l1 t l2 d n f tp, t_due t <= tp ->
    astep (AState c q (l1 ++ HRes t :: l2) d n f) [(c, LAgain (t_id t) tp)] (AState c (t_ins (at_tp t tp) q) (l1 ++ l2) d n f)
| A_direct : forall c q l1 t l2 d n f, ~ In (t_h t) d -> t_due t <= c ->
    astep (AState c q (l1 ++ HRes t :: l2) d n f) [(c, LDirect (t_id t))] (AState c q (l1 ++ HPicked t :: l2) d n f)
| A_disp : forall c q hs d n f h,
    astep (AState c q hs d n f) [(c, LDisp h)] (AState c q hs (h :: d) n f)
| A_flag_ : forall c q hs d n f,
    astep (AState c q hs d n f) [(c, LFlag)] (AState c q hs d n true)
| A_clear : forall c q hs d n,
    astep (AState c q hs d n true) [(c, LClear)] (AState c [] hs d n true)
| A_lost : forall c q l1 t l2 d n,
    astep (AState c q (l1 ++ HRes t :: l2) d n true) [] (AState c q (l1 ++ l2) d n true)
| A_misc : forall c q hs d n f e, misc e -> astep (AState c q hs d n f) [(c, e)] (AState c q hs d n f)
| A_tick : forall c c' q hs d n f, c <= c' -> astep (AState c q hs d n f) [] (AState c' q hs d n f).

Inductive aexec : astate -> list ltev -> astate -> Prop :=
| ANil : forall c, aexec c [] c
| ASnoc : forall c tr c1 ls c2, aexec c tr c1 -> astep c1 ls c2 -> aexec c (tr ++ ls) c2.
Definition a_init (t0 : Z) := AState t0 [] [] [] 0 false.

Lemma aexec_app : forall c tr1 c1 tr2 c2, aexec c tr1 c1 -> aexec c1 tr2 c2 -> aexec c (tr1 ++ tr2) c2.
Proof.
  intros c tr1 c1 tr2 c2 E1 E2. revert E1. induction E2; intro E1.
  - now rewrite app_nil_r.
  - rewrite app_assoc. econstructor; eauto.
Qed.
Lemma aexec_one : forall c ls c', astep c ls c' -> aexec c ls c'.
Proof. intros c ls c' H. change ls with ([] ++ ls). econstructor; [constructor | exact H]. Qed.

Lemma astep_len : forall s ls s', astep s ls s' -> ls = [] \/ exists x, ls = [x].
Proof. intros s ls s' H. inversion H; subst; eauto. Qed.

(** Every event of a trace is the label of a step between reachable states. *)
Lemma a_locate : forall c0 tr c, aexec c0 tr c -> forall a x b, tr = a ++ x :: b ->
  exists s s', aexec c0 a s /\ astep s [x] s' /\ aexec s' b c.
Proof.
  induction 1 as [c|c tr c1 ls c2 E IH ST]; intros a x b EQ; [destruct a; discriminate|].
  destruct (astep_len _ _ _ ST) as [-> | [y ->]].
  - rewrite app_nil_r in EQ. destruct (IH _ _ _ EQ) as (s & s' & A & B & C). exists s, s'. repeat split; auto.
    rewrite <- (app_nil_r b). econstructor; eauto.
  - destruct b as [|z b _] using rev_ind.
    + apply app_inj_tail in EQ. destruct EQ as [-> ->]. exists c1, c2. repeat split; auto. constructor.
    + change (a ++ x :: b ++ [z]) with (a ++ (x :: b) ++ [z]) in EQ. rewrite app_assoc in EQ.
      apply app_inj_tail in EQ. destruct EQ as [-> ->].
      destruct (IH _ _ _ eq_refl) as (s & s' & A & B & C). exists s, s'. repeat split; auto.
      econstructor; eauto.
Qed.


Definition all_tasks (s : astate) : list task := a_queue s ++ map hand_task (a_hands s).
Definition tids (l : list task) : list nat := map t_id l.
Definition tkey (t : task) : Z * nat := (t_tp t, t_id t).
Definition id_of (e : lev) : option nat :=
  match e with
  | LCall _ i _ _ _ | LAgain i _ | LDirect i | LPick i | LDrop i | LStart i | LEnd i _ | LErr i _ => Some i
  | _ => None
  end.
Definition cnt (i : nat) (s : astate) : nat := count_occ Nat.eq_dec (tids (all_tasks s)) i.

Lemma t_ins_perm : forall e q, Permutation (t_ins e q) (e :: q).
Proof. induction q; cbn; auto. destruct (_ <? _); auto. rewrite IHq. constructor. Qed.
Lemma t_ins_in : forall x e q, In x (t_ins e q) <-> x = e \/ In x q.
Proof.
  intros. split; intro H.
  - apply (Permutation_in _ (t_ins_perm e q)) in H. destruct H; auto.
  - apply (Permutation_in _ (Permutation_sym (t_ins_perm e q))). destruct H; [left | right]; auto.
Qed.
Lemma tkey_ins : forall e q, map tkey (t_ins e q) = ins (tkey e) (map tkey q).
Proof. induction q as [|x q IH]; cbn; auto. destruct (_ <? _); cbn; congruence. Qed.
Lemma cnt_ins : forall i e q, count_occ Nat.eq_dec (tids (t_ins e q)) i = count_occ Nat.eq_dec (tids (e :: q)) i.
Proof.
  intros. apply Permutation_count_occ. apply Permutation_map. apply t_ins_perm.
Qed.
Ltac cntn := unfold cnt, all_tasks, tids in *; cbn [a_queue a_hands] in *;
  repeat (rewrite ?map_app, ?count_occ_app, ?map_cons in *; cbn [hand_task map count_occ t_id ran at_tp] in *).
Lemma cnt_in : forall s i, In i (tids (all_tasks s)) <-> (cnt i s > 0)%nat.
Proof. intros. unfold cnt. apply count_occ_In. Qed.
Lemma task_cnt : forall s t, In t (all_tasks s) -> (cnt (t_id t) s > 0)%nat.
Proof. intros s t H. apply cnt_in. now apply in_map. Qed.

(** Identities. *)
Record IdInv (tr : list ltev) (s : astate) : Prop := {
  v_once : forall i, (cnt i s <= 1)%nat;
  v_lt : forall i, (cnt i s > 0)%nat -> (i < a_next s)%nat;
  v_ev : forall t e i, In (t, e) tr -> id_of e = Some i -> (i < a_next s)%nat
}.
Lemma id_inv : forall t0 tr s, aexec (a_init t0) tr s -> IdInv tr s.
Proof.
  intros t0 tr s X. remember (a_init t0) as s0 eqn:E0. induction X as [c|c tr c1 ls c2 X IH ST]; subst.
  - split; cbn; intros; try lia; contradiction.
  - specialize (IH eq_refl). destruct IH as [ON LT EV].
    assert (K : forall i, (cnt i c2 <= cnt i c1 \/ (i = a_next c1 /\ cnt i c2 <= S (cnt i c1) /\ a_next c2 = S (a_next c1)))%nat).
    { intro i. inversion ST; subst; cntn; rewrite ?(cnt_ins i); cntn;
        repeat match goal with |- context [Nat.eq_dec ?x ?y] => destruct (Nat.eq_dec x y) end; subst; cbn [a_next]; try lia. }
    assert (NX : (a_next c1 <= a_next c2)%nat) by (inversion ST; subst; cbn; lia).
    assert (Z0 : cnt (a_next c1) c1 = 0%nat).
    { destruct (cnt (a_next c1) c1) eqn:E; auto. specialize (LT (a_next c1)). lia. }
    split.
    + intro i. specialize (ON i). destruct (K i) as [|(-> & ? & ?)]; lia.
    + intros i P. specialize (LT i). destruct (K i) as [|(-> & ? & ?)]; lia.
    + intros t e i I E. apply in_app_or in I. destruct I as [I|I]; [specialize (EV _ _ _ I E); lia|].
      assert (i = a_next c1 /\ a_next c2 = S i \/ (cnt i c1 > 0)%nat) as [[-> ->] | P].
      { inversion ST; subst; cbn in I; try contradiction; destruct I as [I|[]]; injection I as <- <-; cbn in E; try discriminate;
          try (injection E as <-); cbn [a_next]; auto;
          try (right; cntn; repeat match goal with |- context [Nat.eq_dec ?x ?x] => destruct (Nat.eq_dec x x); [|congruence] end; lia).
        match goal with M : misc ?e |- _ => destruct e; cbn in *; try discriminate; contradiction end. }
      * lia.
      * specialize (LT _ P). lia.
Qed.

Lemma asked_app : forall tr x id, asked (tr ++ [x]) id = asked1 id (asked tr id) x.
Proof. intros. unfold asked. now rewrite fold_left_app. Qed.

Ltac inn := unfold all_tasks in *; cbn [a_queue a_hands a_clock a_next a_dead a_flag] in *;
  repeat (rewrite ?in_app_iff, ?map_app, ?map_cons, ?t_ins_in in *; cbn [hand_task In map] in *).

Lemma in_cnt : forall (t : task) l, In t l -> (count_occ Nat.eq_dec (map t_id l) (t_id t) > 0)%nat.
Proof. intros t l I. apply (proj1 (count_occ_In Nat.eq_dec _ _)). now apply in_map. Qed.

(** Where the tasks of the next state come from. *)
Lemma step_tasks : forall s ls s', astep s ls s' -> (forall i, (cnt i s <= 1)%nat) -> forall t, In t (all_tasks s') ->
  (In t (all_tasks s) /\ (forall c id v, ls = [(c, LEnd id (RAgain v))] -> id <> t_id t)) \/
  (exists v h k code x, t = Task (a_next s) h k code 0 x x /\ ls = [(a_clock s, LCall v (a_next s) h k x)]) \/
  (exists u v, In u (all_tasks s) /\ t = ran (a_clock s) u v /\ ls = [(a_clock s, LEnd (t_id u) (RAgain v))]) \/
  (exists u x, In u (all_tasks s) /\ t = at_tp u x /\ ls = [(a_clock s, LAgain (t_id u) x)]).
Proof.
  intros s ls s' ST ON t I. inversion ST; subst; inn;
    try (left; split; [tauto | intros; congruence]);
    try (destruct I as [[-> | I] | I]; [right; left; do 5 eexists; split; reflexivity | left; split; [tauto | intros; congruence] ..]).
  - destruct I as [I | [I | [<- | I]]].
    4: { left. split; [tauto|]. intros c0 i v0 E. injection E as <- <- <-. intro E.
         specialize (ON (t_id t0)). cntn. apply in_cnt in I. rewrite <- E in I.
         destruct (Nat.eq_dec (t_id t0) (t_id t0)); [|congruence]. lia. }
    1,2: left; split; [tauto|]; intros c0 i v0 E; injection E as <- <- <-; intro E;
         specialize (ON (t_id t0)); cntn; apply in_cnt in I; rewrite <- E in I;
         destruct (Nat.eq_dec (t_id t0) (t_id t0)); [|congruence]; lia.
    right. right. left. eexists _, _. split; [|split; reflexivity]. inn. tauto.
  - destruct I as [[-> | I] | [I | I]]; try (left; split; [tauto | intros; congruence]).
    right. right. right. eexists _, _. split; [|split; reflexivity]. inn. tauto.
  - left. split; [tauto|]. intros c0 i v E. injection E as -> ->. contradiction.
Qed.

Lemma asked_inv : forall t0 tr s, aexec (a_init t0) tr s ->
  forall t, In t (all_tasks s) -> asked tr (t_id t) = Some (t_h t, t_k t, t_due t).
Proof.
  intros t0 tr s X. remember (a_init t0) as s0 eqn:E0. induction X as [c|c tr c1 ls c2 X IH ST]; subst; [contradiction|].
  specialize (IH eq_refl). pose proof (id_inv _ _ _ X) as [ON LT EV].
  intros t I. destruct (step_tasks _ _ _ ST ON _ I) as [[O D] | [(v & h & k & code & x & -> & ->) | [(u & v & Iu & -> & ->) | (u & x & Iu & -> & ->)]]].
  - destruct (astep_len _ _ _ ST) as [-> | [[c x] ->]]; [rewrite app_nil_r; auto|].
    rewrite asked_app. pose proof (IH _ O) as A. rewrite A.
    destruct x as [v id h k tp| | | | | |id r| | | | | | | | | | |]; unfold asked1; cbn [snd fst]; auto.
    + destruct (Nat.eqb_spec id (t_id t)); auto. exfalso.
      assert (id = a_next c1) by (inversion ST; subst; auto; match goal with M : misc _ |- _ => destruct M end).
      pose proof (task_cnt _ _ O). specialize (LT (t_id t)). lia.
    + destruct r as [| |v]; auto. destruct (Nat.eqb_spec id (t_id t)) as [E|]; auto. exfalso. eapply D; eauto.
  - rewrite asked_app. cbn. now rewrite Nat.eqb_refl.
  - rewrite asked_app. cbn. rewrite Nat.eqb_refl, (IH _ Iu). unfold next_due. cbn. now destruct (t_k u).
  - rewrite asked_app. cbn. apply (IH _ Iu).
Qed.

(** Due times. *)
Definition due_ok (h : hand) (c : Z) : Prop := match h with HPicked t => t_due t <= c | _ => True end.
Lemma due_inv : forall t0 tr s, aexec (a_init t0) tr s ->
  (forall t, In t (a_queue s) -> t_due t <= t_tp t) /\ (forall h, In h (a_hands s) -> due_ok h (a_clock s)).
Proof.
  intros t0 tr s X. remember (a_init t0) as s0 eqn:E0. induction X as [c|c tr c1 ls c2 X IH ST]; subst; [split; contradiction|].
  specialize (IH eq_refl). destruct IH as [Q H].
  inversion ST; subst; cbn [a_queue a_hands a_clock] in *; (split; [intros u I | intros g I]);
    rewrite ?in_app_iff, ?t_ins_in in *; cbn [In] in *;
    try (destruct I as [-> | I]; [cbn; lia | now apply Q]);
    try (apply Q; tauto);
    try (apply H; rewrite ?in_app_iff; cbn [In]; tauto).
  - destruct I as [I | [<- | I]]; [apply H; rewrite in_app_iff; tauto | | apply H; rewrite in_app_iff; tauto].
    cbn. specialize (Q t (or_introl eq_refl)). lia.
  - destruct I as [I | [<- | I]]; [apply H; rewrite in_app_iff; tauto | exact Logic.I | apply H; rewrite in_app_iff; cbn; tauto].
  - destruct I as [I | [<- | I]]; [apply H; rewrite in_app_iff; tauto | exact Logic.I | apply H; rewrite in_app_iff; cbn; tauto].
  - destruct I as [I | [<- | I]]; [apply H; rewrite in_app_iff; tauto | exact Logic.I | apply H; rewrite in_app_iff; cbn; tauto].
  - destruct I as [I | [<- | I]]; [apply H; rewrite in_app_iff; tauto | cbn; lia | apply H; rewrite in_app_iff; cbn; tauto].
  - specialize (H _ I). destruct g; cbn in *; auto. lia.
Qed.

(** The queue. *)
Lemma waits_app : forall tr x, waits (tr ++ [x]) = waiting1 (waits tr) x.
Proof. intros. unfold waits. now rewrite fold_left_app. Qed.
Lemma key_ids : forall q, idsw (map tkey q) = tids q.
Proof. intros. unfold idsw, tids. rewrite map_map. reflexivity. Qed.
Lemma pend_drop : forall w t q, map tkey (t :: q) = sortw w -> NoDup (tids (t :: q)) ->
  first_min w = Some (tkey t, filter (fun x => negb (Nat.eqb (snd x) (t_id t))) w) /\
  map tkey q = sortw (filter (fun x => negb (Nat.eqb (snd x) (t_id t))) w).
Proof.
  intros w t q E N.
  assert (NW : NoDup (idsw w)).
  { eapply Permutation_NoDup; [|rewrite <- key_ids in N; exact N]. rewrite E. unfold idsw. apply Permutation_map, sortw_perm. }
  pose proof (first_min_sort w) as S1. destruct (first_min w) as [[y r]|] eqn:F.
  - cbn [map] in E. rewrite S1 in E. injection E as E1 E2. subst y.
    pose proof (first_min_filter _ _ _ NW F) as FF. cbn in FF. rewrite FF. auto.
  - subst w. discriminate.
Qed.
Lemma cnt_nodup : forall q hs, (forall i, (count_occ Nat.eq_dec (tids (q ++ map hand_task hs)) i <= 1)%nat) -> NoDup (tids q).
Proof.
  intros q hs H. apply (NoDup_count_occ Nat.eq_dec). intro i. specialize (H i). unfold tids in H. rewrite map_app, count_occ_app in H.
  unfold tids. lia.
Qed.
Lemma pend_inv : forall t0 tr s, aexec (a_init t0) tr s -> map tkey (a_queue s) = sortw (waits tr).
Proof.
  intros t0 tr s X. remember (a_init t0) as s0 eqn:E0. induction X as [c|c tr c1 ls c2 X IH ST]; subst; [reflexivity|].
  specialize (IH eq_refl). pose proof (id_inv _ _ _ X) as [ON _ _].
  inversion ST; subst; rewrite ?app_nil_r, ?waits_app; cbn [waiting1 snd a_queue] in *; auto.
  - rewrite tkey_ins, sortw_snoc. now f_equal.
  - apply (proj2 (pend_drop _ _ _ IH (cnt_nodup _ _ ON))).
  - apply (proj2 (pend_drop _ _ _ IH (cnt_nodup _ _ ON))).
  - rewrite filter_none; auto. intro W. rewrite <- idsw_sort, <- IH, key_ids in W.
    specialize (ON (t_id t)). cntn. apply (proj1 (count_occ_In Nat.eq_dec _ _)) in W.
    destruct (Nat.eq_dec (t_id t) (t_id t)); [lia | congruence].
  - rewrite filter_none; auto. intro W. rewrite <- idsw_sort, <- IH, key_ids in W.
    specialize (ON (t_id t)). cntn. apply (proj1 (count_occ_In Nat.eq_dec _ _)) in W.
    destruct (Nat.eq_dec (t_id t) (t_id t)); [lia | congruence].
  - rewrite tkey_ins, sortw_snoc. now f_equal.
  - unfold waits at 1. destruct e; cbn in *; auto; contradiction.
Qed.

(** Status of tasks. *)
Lemma happened_app : forall tr ls e, happened (tr ++ ls) e <-> happened tr e \/ happened ls e.
Proof. intros. unfold happened. split; [intros (t & I); apply in_app_or in I; destruct I; eauto | intros [(t & I) | (t & I)]; exists t; apply in_or_app; auto]. Qed.
Lemma happened_one : forall c x e, happened [(c, x)] e <-> x = e.
Proof. intros. unfold happened. split; [intros (t & [E | []]); congruence | intros <-; exists c; now left]. Qed.
Lemma happened_nil : forall e, ~ happened [] e.
Proof. intros e (t & []). Qed.
Lemma called_app : forall tr ls i, called (tr ++ ls) i <-> called tr i \/ called ls i.
Proof.
  intros. unfold called. split.
  - intros (v & h & k & tp & H). apply happened_app in H. destruct H; [left | right]; do 4 eexists; eauto.
  - intros [(v & h & k & tp & H) | (v & h & k & tp & H)]; exists v, h, k, tp; apply happened_app; auto.
Qed.
Lemma over_app : forall tr ls i, over (tr ++ ls) i <-> over tr i \/ over ls i.
Proof. intros. unfold over. rewrite !happened_app. tauto. Qed.

Definition hand_act (h : hand) : list nat := match h with HErr _ => [] | _ => [t_id (hand_task h)] end.
Definition hand_err (h : hand) : list nat := match h with HErr t => [t_id t] | _ => [] end.
Definition hand_run (h : hand) : list nat := match h with HRun t => [t_id t] | _ => [] end.
Definition act_n (i : nat) (s : astate) : nat :=
  (count_occ Nat.eq_dec (tids (a_queue s)) i + count_occ Nat.eq_dec (flat_map hand_act (a_hands s)) i)%nat.
Definition err_n (i : nat) (s : astate) : nat := count_occ Nat.eq_dec (flat_map hand_err (a_hands s)) i.
Definition run_n (i : nat) (s : astate) : nat := count_occ Nat.eq_dec (flat_map hand_run (a_hands s)) i.
Lemma cnt_split : forall i s, cnt i s = (act_n i s + err_n i s)%nat.
Proof.
  intros. unfold cnt, act_n, err_n, all_tasks, tids. rewrite map_app, count_occ_app, <- Nat.add_assoc. f_equal.
  induction (a_hands s) as [|h hs IH]; auto. cbn [map flat_map]. rewrite !count_occ_app. destruct h; cbn [hand_task hand_act hand_err count_occ]; destruct (Nat.eq_dec _ _); lia.
Qed.
Lemma run_le : forall i s, (run_n i s <= act_n i s)%nat.
Proof.
  intros. unfold run_n, act_n. enough (count_occ Nat.eq_dec (flat_map hand_run (a_hands s)) i <= count_occ Nat.eq_dec (flat_map hand_act (a_hands s)) i)%nat by lia.
  induction (a_hands s) as [|h hs IH]; auto. cbn [flat_map]. rewrite !count_occ_app. destruct h; cbn [hand_run hand_act count_occ hand_task]; try destruct (Nat.eq_dec _ _); lia.
Qed.
Ltac actn := unfold act_n, err_n, run_n, tids in *; cbn [a_queue a_hands a_next a_flag] in *;
  repeat (rewrite ?map_app, ?flat_map_app, ?count_occ_app, ?map_cons in *; cbn [flat_map hand_act hand_err hand_run hand_task map app count_occ t_id ran at_tp] in *).
Ltac eqd := repeat match goal with
  | H : context [Nat.eq_dec ?x ?y] |- _ => destruct (Nat.eq_dec x y); subst
  | |- context [Nat.eq_dec ?x ?y] => destruct (Nat.eq_dec x y); subst end.
Lemma act_ins : forall i e q, count_occ Nat.eq_dec (map t_id (t_ins e q)) i = count_occ Nat.eq_dec (map t_id (e :: q)) i.
Proof. intros. apply cnt_ins. Qed.

Definition term_of (e : lev) : option nat :=
  match e with LDrop i | LEnd i RStop | LEnd i RThrow => Some i | _ => None end.
Lemma over_one : forall c x i, over [(c, x)] i <-> term_of x = Some i.
Proof.
  intros. unfold over. rewrite !happened_one. split.
  - intros [-> | [-> | ->]]; reflexivity.
  - destruct x; cbn; try discriminate; [|destruct r; try discriminate]; intro E; injection E as ->; auto.
Qed.
Lemma called_one : forall c x i, called [(c, x)] i <-> exists v h k tp, x = LCall v i h k tp.
Proof. intros. unfold called. setoid_rewrite happened_one. tauto. Qed.

Lemma over_lt : forall tr s i, IdInv tr s -> over tr i -> (i < a_next s)%nat.
Proof. intros tr s i [_ _ EV] [(t & I) | [(t & I) | (t & I)]]; eapply EV; eauto. Qed.
Lemma over_fl : forall t0 tr s, aexec (a_init t0) tr s -> forall i, over tr i -> act_n i s = 0%nat.
Proof.
  intros t0 tr s X. remember (a_init t0) as s0 eqn:E0. induction X as [c|c tr c1 ls c2 X IH ST]; subst.
  - intros i [(t & []) | [(t & []) | (t & [])]].
  - specialize (IH eq_refl). pose proof (id_inv _ _ _ X) as I0. pose proof I0 as [ON LT EV]. intros i O. apply over_app in O.
    destruct O as [O | O].
    + pose proof (over_lt _ _ _ I0 O). specialize (IH _ O).
      inversion ST; subst; actn; rewrite ?act_ins; actn; eqd; lia.
    + specialize (ON i). rewrite cnt_split in ON.
      inversion ST; subst; try (destruct O as [(?t & []) | [(?t & []) | (?t & [])]]; fail); apply over_one in O; cbn in O; try discriminate;
        try (injection O as O; subst i); try (actn; eqd; lia).
      match goal with M : misc ?e |- _ => destruct e; cbn in *; try discriminate; contradiction end.
Qed.
Lemma all_fl : forall t0 tr s, aexec (a_init t0) tr s -> forall i, called tr i -> (act_n i s > 0)%nat \/ over tr i \/ a_flag s = true.
Proof.
  intros t0 tr s X. remember (a_init t0) as s0 eqn:E0. induction X as [c|c tr c1 ls c2 X IH ST]; subst.
  - intros i (v & h & k & tp & t & []).
  - specialize (IH eq_refl). intros i C. apply called_app in C. rewrite over_app. destruct C as [C | C].
    + destruct (IH _ C) as [A | [O | F]].
      * inversion ST; subst; actn; rewrite ?act_ins; actn; try (left; eqd; lia); try (right; right; reflexivity);
          rewrite over_one; cbn [term_of]; eqd; auto; try (left; lia).
      * auto.
      * right. right. inversion ST; subst; auto.
    + left. inversion ST; subst; try (destruct C as (?v & ?h & ?k & ?tp & ?t & []); fail); apply called_one in C;
        destruct C as (v0 & h0 & k0 & tp0 & E); try discriminate; [injection E as <- <- <- <- <- | subst e; contradiction].
      actn. rewrite act_ins. actn. eqd; lia.
Qed.
Lemma err_fl : forall t0 tr s, aexec (a_init t0) tr s ->
  (forall i, (err_n i s > 0)%nat -> happened tr (LEnd i RThrow) /\ (forall h, ~ happened tr (LErr i h))) /\
  (forall i, happened tr (LEnd i RThrow) -> (err_n i s > 0)%nat \/ exists h, happened tr (LErr i h)) /\
  (forall i h, happened tr (LErr i h) -> happened tr (LEnd i RThrow) /\ cnt i s = 0%nat).
Proof.
  intros t0 tr s X. remember (a_init t0) as s0 eqn:E0. induction X as [c|c tr c1 ls c2 X IH ST]; subst.
  - split; [|split].
    + intros i H. cbn in H. lia.
    + intros i (t & []).
    + intros i h (t & []).
  - specialize (IH eq_refl). destruct IH as (A & B & C). pose proof (id_inv _ _ _ X) as I0. pose proof I0 as [ON LT EV].
    assert (L : forall i h, happened tr (LErr i h) -> (i < a_next c1)%nat) by (intros i h (t & I); eapply EV; eauto; reflexivity).
    split; [|split].
    + intros i P.
      assert (D : (err_n i c1 > 0)%nat \/ (err_n i c1 = 0%nat /\ exists c, ls = [(c, LEnd i RThrow)])).
      { inversion ST; subst; actn; eqd; eauto; try (left; lia). destruct (count_occ Nat.eq_dec (flat_map hand_err l1) (t_id t) + count_occ Nat.eq_dec (flat_map hand_err l2) (t_id t))%nat eqn:E; [right; split; [lia | eauto] | left; lia]. }
      destruct D as [D | [Z0 [c0 ->]]].
      * destruct (A _ D) as [A1 A2]. split; [rewrite happened_app; auto|]. intros h H. apply happened_app in H.
        destruct H as [H | H]; [now apply (A2 h)|].
        specialize (ON i). rewrite cnt_split in ON.
        inversion ST; subst; try (now apply happened_nil in H); apply happened_one in H; try discriminate; [injection H as <- <- | subst e; contradiction].
        actn; eqd; try lia; congruence.
      * split; [rewrite happened_app, happened_one; auto|]. intros h H. apply happened_app in H.
        destruct H as [H | H]; [|apply happened_one in H; discriminate].
        destruct (C _ _ H) as [_ C2]. assert ((cnt i c1 > 0)%nat); [|lia].
        rewrite cnt_split. inversion ST; subst; [actn; eqd; lia | contradiction].
    + intros i H. apply happened_app in H.
      setoid_rewrite happened_app. destruct H as [H | H].
      * destruct (B _ H) as [B1 | [h B1]]; [|right; exists h; auto].
        inversion ST; subst; actn; try (left; eqd; lia). destruct (Nat.eq_dec (t_id t) i); subst; [|left; lia].
        right. exists (t_h t). right. now apply happened_one.
      * left. inversion ST; subst; try (now apply happened_nil in H); apply happened_one in H; try discriminate; [injection H as <- | subst e; contradiction].
        actn; eqd; try lia; congruence.
    + intros i h H. apply happened_app in H. destruct H as [H | H].
      * destruct (C _ _ H) as [C1 C2]. split; [rewrite happened_app; auto|]. specialize (L _ _ H). clear - ST C2 L.
        inversion ST; subst; cntn; rewrite ?(cnt_ins i); cntn; cbn [a_next] in *; eqd; lia.
      * specialize (ON i).
        inversion ST; subst; try (now apply happened_nil in H); apply happened_one in H; try discriminate; [injection H as <- <- | subst e; contradiction].
        destruct (A (t_id t)) as [A1 _]; [actn; eqd; try lia; congruence|].
        split; [rewrite happened_app; auto|]. cntn. eqd; try lia; congruence.
Qed.

Lemma in_run_app : forall tr x, in_run (tr ++ [x]) = runs1 (in_run tr) x.
Proof. intros. unfold in_run. now rewrite fold_left_app. Qed.
Lemma count_filter : forall i j l, count_occ Nat.eq_dec (filter (fun x => negb (Nat.eqb x j)) l) i =
  if Nat.eq_dec i j then 0%nat else count_occ Nat.eq_dec l i.
Proof.
  induction l as [|x l IH]; cbn; [now destruct (Nat.eq_dec i j)|].
  destruct (Nat.eqb_spec x j); cbn; destruct (Nat.eq_dec x i); destruct (Nat.eq_dec i j); subst; rewrite ?IH; try congruence; destruct (Nat.eq_dec _ _); congruence.
Qed.
Lemma run_fl : forall t0 tr s, aexec (a_init t0) tr s -> forall i, count_occ Nat.eq_dec (in_run tr) i = run_n i s.
Proof.
  intros t0 tr s X. remember (a_init t0) as s0 eqn:E0. induction X as [c|c tr c1 ls c2 X IH ST]; subst; auto.
  specialize (IH eq_refl). pose proof (id_inv _ _ _ X) as [ON _ _]. intro i. specialize (IH i). specialize (ON i).
  rewrite cnt_split in ON. pose proof (run_le i c1).
  inversion ST; subst; rewrite ?app_nil_r, ?in_run_app; cbn [runs1 snd]; rewrite ?count_filter; actn;
    try (eqd; lia).
  destruct e; cbn in *; try contradiction; lia.
Qed.
Lemma dead_fl : forall t0 tr s, aexec (a_init t0) tr s -> (forall h, In h (a_dead s) <-> gone tr h) /\ (a_flag s = true <-> happened tr LFlag).
Proof.
  intros t0 tr s X. remember (a_init t0) as s0 eqn:E0. induction X as [c|c tr c1 ls c2 X IH ST]; subst.
  - split; cbn; [intro h|]; split; try contradiction; try discriminate; intros (t & []).
  - specialize (IH eq_refl). destruct IH as [A B].
    inversion ST; subst; unfold gone in *; cbn [a_dead a_flag] in *; (split; [intro hh; specialize (A hh)|]);
      rewrite ?app_nil_r, ?happened_app, ?happened_one; cbn [In] in *; try tauto;
      try (split; [intro; left; tauto | intros [|]; [tauto | discriminate]]); try (split; [intro; left; tauto | intros [|]; [tauto | subst; contradiction]]).
    split; [intros [-> | H]; tauto | intros [H | H]; [tauto | injection H as ->; tauto]].
Qed.

(** ** What holds for every loop. *)
Section Facts.
  Variables (t0 : Z) (tr : list ltev) (s : astate).
  Hypothesis X : aexec (a_init t0) tr s.

  Lemma f_pick : forall a t id b, tr = a ++ (t, LPick id) :: b ->
    exists tp r h k x, first_min (waits a) = Some ((tp, id), r) /\ tp <= t /\
      asked a id = Some (h, k, x) /\ ~ gone a h.
  Proof.
    intros a t id b E. destruct (a_locate _ _ _ X _ _ _ E) as (s1 & s2 & X1 & ST & _).
    pose proof (id_inv _ _ _ X1) as [ON _ _]. pose proof (asked_inv _ _ _ X1) as A. pose proof (pend_inv _ _ _ X1) as P.
    pose proof (proj1 (dead_fl _ _ _ X1)) as D.
    inversion ST; subst; [|match goal with M : misc _ |- _ => destruct M end].
    exists (t_tp t1). eexists. exists (t_h t1), (t_k t1), (t_due t1).
    split; [|split; [auto|split]].
    - apply (proj1 (pend_drop _ _ _ P (cnt_nodup _ _ ON))).
    - apply A. inn. tauto.
    - rewrite <- D. auto.
  Qed.
  Lemma f_start : forall a t id b, tr = a ++ (t, LStart id) :: b ->
    exists h k x, asked a id = Some (h, k, x) /\ x <= t /\ ~ In id (in_run a).
  Proof.
    intros a t id b E. destruct (a_locate _ _ _ X _ _ _ E) as (s1 & s2 & X1 & ST & _).
    pose proof (asked_inv _ _ _ X1) as A. pose proof (proj2 (due_inv _ _ _ X1)) as D.
    pose proof (run_fl _ _ _ X1 id) as R. pose proof (id_inv _ _ _ X1) as [ON _ _]. specialize (ON id). rewrite cnt_split in ON.
    inversion ST; subst; [|match goal with M : misc _ |- _ => destruct M end].
    do 3 eexists. split; [apply A; inn; tauto|]. split; [apply (D (HPicked t1)); cbn; rewrite in_app_iff; cbn; tauto|].
    rewrite (count_occ_In Nat.eq_dec), R.
    match goal with |- ~ (run_n _ ?c > 0)%nat => set (c1 := c) in * end.
    assert (act_n (t_id t1) c1 > run_n (t_id t1) c1)%nat; [|lia].
    assert (H1 : forall l, (count_occ Nat.eq_dec (flat_map hand_run l) (t_id t1) <= count_occ Nat.eq_dec (flat_map hand_act l) (t_id t1))%nat).
    { intro l. pose proof (run_le (t_id t1) (AState 0 [] l [] 0 false)) as W. exact W. }
    pose proof (H1 l1). pose proof (H1 l2). unfold c1. actn. eqd; try lia; congruence.
  Qed.
  Lemma f_drop : forall a t id b, tr = a ++ (t, LDrop id) :: b ->
    exists h k x, asked a id = Some (h, k, x) /\ gone a h.
  Proof.
    intros a t id b E. destruct (a_locate _ _ _ X _ _ _ E) as (s1 & s2 & X1 & ST & _).
    pose proof (asked_inv _ _ _ X1) as A. pose proof (proj1 (dead_fl _ _ _ X1)) as D.
    inversion ST; subst; [| | |match goal with M : misc _ |- _ => destruct M end];
      (do 3 eexists; split; [apply A; inn; tauto | now apply D]).
  Qed.
  Lemma f_direct : forall a t id b, tr = a ++ (t, LDirect id) :: b ->
    exists h k x, asked a id = Some (h, k, x) /\ x <= t /\ ~ gone a h.
  Proof.
    intros a t id b E. destruct (a_locate _ _ _ X _ _ _ E) as (s1 & s2 & X1 & ST & _).
    pose proof (asked_inv _ _ _ X1) as A. pose proof (proj1 (dead_fl _ _ _ X1)) as D.
    inversion ST; subst; [|match goal with M : misc _ |- _ => destruct M end].
    do 3 eexists. split; [apply A; inn; tauto|]. split; [assumption|]. rewrite <- D. auto.
  Qed.
  Lemma f_over : forall a t e b id, tr = a ++ (t, e) :: b -> over a id -> id_of e = Some id -> exists h, e = LErr id h.
  Proof.
    intros a t e b id E O I. destruct (a_locate _ _ _ X _ _ _ E) as (s1 & s2 & X1 & ST & _).
    pose proof (over_fl _ _ _ X1 _ O) as Z1. pose proof (over_lt _ _ _ (id_inv _ _ _ X1) O) as L.
    inversion ST; subst; cbn in I; try discriminate; try (injection I as <-); eauto; try (exfalso; actn; eqd; lia).
    destruct e; cbn in *; try discriminate; contradiction.
  Qed.
  Lemma f_err : forall a t id h b, tr = a ++ (t, LErr id h) :: b ->
    happened a (LEnd id RThrow) /\ (forall h', ~ happened a (LErr id h')) /\ (exists k x, asked a id = Some (h, k, x)) /\
    (forall h', ~ happened b (LErr id h')).
  Proof.
    intros a t id h b E. destruct (a_locate _ _ _ X _ _ _ E) as (s1 & s2 & X1 & ST & X2).
    pose proof (asked_inv _ _ _ X1) as A. destruct (err_fl _ _ _ X1) as (E1 & _).
    assert (W : (forall h', ~ happened a (LErr id h')) /\ happened a (LEnd id RThrow) /\ exists k x, asked a id = Some (h, k, x)).
    { inversion ST; subst; [|match goal with M : misc _ |- _ => destruct M end].
      destruct (E1 (t_id t1)) as [E2 E3]; [actn; eqd; try lia; congruence|]. repeat split; auto. do 2 eexists. apply A. inn. tauto. }
    destruct W as (W1 & W2 & W3). repeat split; auto. intros h' (t' & H). destruct (in_split _ _ H) as (p & q & ->).
    assert (E' : tr = (a ++ (t, LErr id h) :: p) ++ (t', LErr id h') :: q) by (rewrite E, <- app_assoc; reflexivity).
    destruct (a_locate _ _ _ X _ _ _ E') as (s3 & s4 & X3 & ST3 & _). destruct (err_fl _ _ _ X3) as (E3 & _).
    assert (P : (err_n id s3 > 0)%nat).
    { inversion ST3; subst; [|match goal with M : misc _ |- _ => destruct M end]. actn; eqd; try lia; congruence. }
    destruct (E3 _ P) as [_ E4]. apply (E4 h). rewrite happened_app. right. exists t. now left.
  Qed.
  Lemma f_threw : (forall i, err_n i s = 0%nat) -> forall id, happened tr (LEnd id RThrow) -> exists h, happened tr (LErr id h).
  Proof.
    intros H id T. destruct (err_fl _ _ _ X) as (_ & E & _). destruct (E _ T) as [P | P]; auto.
    rewrite H in P. lia.
  Qed.
  Lemma f_thrown : a_hands s = [] -> forall id, happened tr (LEnd id RThrow) -> exists h, happened tr (LErr id h).
  Proof.
    intros H id T. destruct (err_fl _ _ _ X) as (_ & E & _). destruct (E _ T) as [P | P]; auto.
    unfold err_n in P. rewrite H in P. cbn in P. lia.
  Qed.
  Lemma f_all : a_hands s = [] -> a_flag s = false -> forall id, called tr id -> over tr id \/ In id (idsw (waits tr)).
  Proof.
    intros H F id C. destruct (all_fl _ _ _ X _ C) as [P | [O | G]]; auto; [|congruence].
    right. unfold act_n in P. rewrite H in P. cbn in P. rewrite Nat.add_0_r in P. apply (proj2 (count_occ_In Nat.eq_dec _ _)) in P.
    rewrite <- key_ids, (pend_inv _ _ _ X), idsw_sort in P. exact P.
  Qed.
  Lemma f_queue : map tkey (a_queue s) = sortw (waits tr).
  Proof. apply (pend_inv _ _ _ X). Qed.
End Facts.

Lemma zsum_app : forall a b, zsum (a ++ b) = zsum a + zsum b.
Proof. unfold zsum. induction a as [|x a IH]; intros b; cbn [app fold_right]; [lia|]. rewrite IH. lia. Qed.
Lemma f_period : forall t0 tr s, aexec (a_init t0) tr s -> forall id h x, asked tr id = Some (h, KThis, x) ->
  exists f, lfirst tr id = Some f /\ x = f + zsum (intervals tr id).
Proof.
  intros t0 tr s X. remember (a_init t0) as s0 eqn:E0. induction X as [c|c tr c1 ls c2 X IH ST]; subst; [discriminate|].
  specialize (IH eq_refl). pose proof (id_inv _ _ _ X) as [_ _ EV]. intros id h x A.
  destruct (astep_len _ _ _ ST) as [-> | [[c1' e] ->]]; [rewrite app_nil_r in *; eauto|].
  rewrite asked_app in A. unfold lfirst, intervals in *. rewrite fold_left_app, flat_map_app. cbn [fold_left flat_map snd app].
  assert (OLD : asked tr id = Some (h, KThis, x) -> (forall id' v, e <> LEnd id' (RAgain v) \/ id' <> id) ->
    exists f, lfirst1 id (fold_left (lfirst1 id) tr None) (c1', e) = Some f /\
    x = f + zsum (flat_map (fun e => match snd e with LEnd i (RAgain v) => if Nat.eqb i id then [v] else [] | _ => [] end) tr ++ match e with LEnd i (RAgain v) => if Nat.eqb i id then [v] else [] | _ => [] end ++ [])).
  { intros A' NE. destruct (IH _ _ _ A') as (f & F & E). exists f. rewrite F. split; [reflexivity|]. rewrite !zsum_app.
    destruct e; cbn; try lia. destruct r; cbn; try lia. destruct (Nat.eqb_spec id0 id); cbn; try lia. destruct (NE id0 v); congruence. }
  destruct e; unfold asked1 in A; cbn [snd fst] in A; try (apply OLD; [exact A | intros; left; congruence]).
  - (* LCall *) destruct (Nat.eqb_spec id0 id); [|apply OLD; [exact A | intros; left; congruence]]. subst id0. injection A as -> -> ->.
    assert (id = a_next c1) by (inversion ST; subst; auto; match goal with M : misc _ |- _ => destruct M end). subst id.
    assert (NE : forall t e, In (t, e) tr -> id_of e <> Some (a_next c1)) by (intros t e I E; specialize (EV _ _ _ I E); lia).
    exists x. split.
    + assert (N1 : fold_left (lfirst1 (a_next c1)) tr None = None).
      { clear - NE. induction tr as [|[t e] tr IH]; auto. cbn [fold_left].
        replace (lfirst1 (a_next c1) None (t, e)) with (@None Z); [apply IH; intros; eapply NE; right; eauto|].
        specialize (NE t e (or_introl eq_refl)). destruct e; cbn in *; auto. destruct (Nat.eqb_spec id (a_next c1)); congruence. }
      rewrite N1. cbn. now rewrite Nat.eqb_refl.
    + assert (N2 : flat_map (fun e => match snd e with LEnd i (RAgain v) => if Nat.eqb i (a_next c1) then [v] else [] | _ => [] end) tr = []).
      { clear - NE. induction tr as [|[t e] tr IH]; auto. cbn [flat_map snd]. rewrite IH by (intros; eapply NE; right; eauto).
        specialize (NE t e (or_introl eq_refl)). destruct e; cbn in *; auto. destruct r; auto. destruct (Nat.eqb_spec id (a_next c1)); auto. congruence. }
      unfold ltev in *. rewrite N2. cbn. lia.
  - (* LEnd *) destruct r; try (apply OLD; [exact A | intros; left; congruence]).
    destruct (Nat.eqb_spec id0 id) as [|DI]; [|apply OLD; [exact A | intros id' v'; destruct (Nat.eq_dec id' id); [left; congruence | now right]]]. subst id0.
    destruct (asked tr id) as [[[h' k'] x']|] eqn:A'; [|discriminate].
    destruct k'; try discriminate. injection A as -> <-.
    destruct (IH _ _ _ A') as (f & F & E). exists f. rewrite F. split; [reflexivity|]. rewrite zsum_app. change (zsum ([v] ++ [])) with (v + 0). unfold ltev in *. lia.
Qed.

(** Runs per submission. *)
Definition times (p : lev -> bool) (tr : list ltev) : nat := length (filter (fun e => p (snd e)) tr).
Definition is_start (i : nat) (e : lev) : bool := match e with LStart j => Nat.eqb j i | _ => false end.
Definition is_pick (i : nat) (e : lev) : bool := match e with LPick j | LDirect j => Nat.eqb j i | _ => false end.
Definition is_req (i : nat) (e : lev) : bool := match e with LCall _ j _ _ _ | LEnd j (RAgain _) => Nat.eqb j i | _ => false end.
Definition hand_new (h : hand) : list nat := match h with HPicked t | HRes t => [t_id t] | _ => [] end.
Lemma f_once : forall t0 tr s, aexec (a_init t0) tr s -> forall i, (times (is_start i) tr <= times (is_req i) tr)%nat.
Proof.
  intros t0 tr s X i.
  enough (H : (times (is_start i) tr + count_occ Nat.eq_dec (tids (a_queue s)) i + count_occ Nat.eq_dec (flat_map hand_new (a_hands s)) i <= times (is_req i) tr)%nat) by lia.
  remember (a_init t0) as s0 eqn:E0. induction X as [c|c tr c1 ls c2 X IH ST]; subst; [cbn; lia|].
  specialize (IH eq_refl). unfold times in *. rewrite !filter_app, !app_length.
  inversion ST; subst; cbn [a_queue a_hands filter snd is_start is_req length app] in *; unfold tids in *; rewrite ?act_ins;
    repeat (rewrite ?flat_map_app, ?count_occ_app, ?map_cons in *; cbn [flat_map hand_new app count_occ t_id ran at_tp map] in *);
    repeat match goal with |- context [Nat.eqb ?x ?y] => destruct (Nat.eqb_spec x y); subst end; cbn [length];
    unfold ltev in *; eqd; try lia; try congruence.
  all: match goal with M : misc ?e |- _ => destruct e; cbn in *; try contradiction; lia end.
Qed.

Definition hand_picked (h : hand) : list nat := match h with HPicked t => [t_id t] | _ => [] end.
Lemma f_started : forall t0 tr s, aexec (a_init t0) tr s -> forall i, (times (is_start i) tr <= times (is_pick i) tr)%nat.
Proof.
  intros t0 tr s X i.
  enough (H : (times (is_start i) tr + count_occ Nat.eq_dec (flat_map hand_picked (a_hands s)) i <= times (is_pick i) tr)%nat) by lia.
  remember (a_init t0) as s0 eqn:E0. induction X as [c|c tr c1 ls c2 X IH ST]; subst; [cbn; lia|].
  specialize (IH eq_refl). unfold times in *. rewrite !filter_app, !app_length.
  inversion ST; subst; cbn [a_queue a_hands filter snd is_start is_pick length app] in *;
    repeat (rewrite ?flat_map_app, ?count_occ_app, ?map_cons in *; cbn [flat_map hand_picked app count_occ t_id ran at_tp map] in *);
    repeat match goal with |- context [Nat.eqb ?x ?y] => destruct (Nat.eqb_spec x y); subst end; cbn [length];
    unfold ltev in *; eqd; try lia; try congruence.
  all: match goal with M : misc ?e |- _ => destruct e; cbn in *; try contradiction; lia end.
Qed.

(** Simulation. *)

Section Sim.
  Context {S item : Type}.
  Variable istep : S -> item -> option (S * list item * list ltev).
  Variable abs : S -> list item -> astate.
  Variable Ok : S -> list item -> Prop.
  Hypothesis sim1 : forall s l1 it l2 s' its ls, Ok s (l1 ++ it :: l2) -> istep s it = Some (s', its, ls) ->
    Ok s' (l1 ++ its ++ l2) /\ aexec (abs s (l1 ++ it :: l2)) ls (abs s' (l1 ++ its ++ l2)).
  Lemma simulate : forall c0 tr c, gexec istep c0 tr c -> Ok (fst c0) (concat (snd c0)) ->
    Ok (fst c) (concat (snd c)) /\ aexec (abs (fst c0) (concat (snd c0))) tr (abs (fst c) (concat (snd c))).
  Proof.
    intros c0 tr c X. induction X as [c|c tr c1 ls c2 X IH G]; intro O; [split; auto; constructor|].
    destruct (IH O) as [O1 A1]. inversion G as [s ts1 it rest ts2 s' its ls' E]; subst. cbn [fst snd] in *.
    rewrite !concat_app in *. cbn [concat] in *. rewrite <- !app_comm_cons, <- !app_assoc in *.
    destruct (sim1 _ _ _ _ _ _ _ O1 E) as [O2 A2].
    split; [exact O2|]. eapply aexec_app; eauto.
  Qed.
End Sim.
