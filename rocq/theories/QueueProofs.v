(** C13: the linked list is a stable priority queue. *)
From Coq Require Import ZArith.
From Verif Require Import Base QueueSpec QueueModel.
Open Scope Z_scope.

(** Sorted-list view. *)
Fixpoint ins (x : Z * nat) (l : waiting) : waiting :=
  match l with
  | [] => [x]
  | y :: r => if fst x <? fst y then x :: y :: r else y :: ins x r
  end.
Definition sortw (w : waiting) : waiting := fold_left (fun l x => ins x l) w [].
Fixpoint insf (x : Z * nat) (l : waiting) : waiting :=
  match l with
  | [] => [x]
  | y :: r => if fst y <? fst x then y :: insf x r else x :: y :: r
  end.

Ltac zb := repeat match goal with
  | |- context [?a <? ?b] => destruct (Z.ltb_spec a b)
  | H : context [?a <? ?b] |- _ => destruct (Z.ltb_spec a b)
  end.

Lemma ins_insf : forall a x l, ins a (insf x l) = insf x (ins a l).
Proof.
  intros a x l. induction l as [|y r IH]; cbn.
  - zb; cbn; zb; auto; lia.
  - zb; cbn; zb; cbn; rewrite ?IH; zb; auto; try lia.
Qed.

Lemma sortw_snoc : forall w x, sortw (w ++ [x]) = ins x (sortw w).
Proof. intros. unfold sortw. now rewrite fold_left_app. Qed.

Lemma sortw_cons : forall x w, sortw (x :: w) = insf x (sortw w).
Proof.
  intros x w. unfold sortw. cbn. change [x] with (insf x []).
  assert (G: forall w l, fold_left (fun l x => ins x l) w (insf x l) = insf x (fold_left (fun l x => ins x l) w l)).
  { clear w. induction w as [|a w IH]; intro l; cbn; auto. rewrite ins_insf. apply IH. }
  apply G.
Qed.

Lemma first_min_sort : forall w,
  match first_min w with
  | Some (y, w') => sortw w = y :: sortw w'
  | None => w = []
  end.
Proof.
  induction w as [|x r IH]; cbn [first_min]; auto.
  destruct (first_min r) as [[y r']|].
  - rewrite sortw_cons, IH. cbn. destruct (Z.ltb_spec (fst y) (fst x)).
    + now rewrite sortw_cons.
    + now rewrite IH.
  - subst. reflexivity.
Qed.

Lemma sortw_nil : forall w, sortw w = [] -> w = [].
Proof.
  intros w E. pose proof (first_min_sort w) as F. destruct (first_min w) as [[y w']|]; auto. congruence.
Qed.

Lemma ins_in : forall x y l, In y (ins x l) <-> y = x \/ In y l.
Proof.
  intros x y l. induction l as [|z r IH]; cbn; [intuition|]. zb; cbn; rewrite ?IH; intuition.
Qed.
Lemma sortw_in : forall y w, In y (sortw w) <-> In y w.
Proof.
  intros y w. induction w as [|x w IH] using rev_ind; [cbn; tauto|].
  rewrite sortw_snoc, ins_in, in_app_iff, IH. cbn. intuition.
Qed.

Definition idsw (l : waiting) : list nat := map snd l.
Lemma ins_nodup : forall x l, NoDup (idsw l) -> ~ In (snd x) (idsw l) -> NoDup (idsw (ins x l)).
Proof.
  intros x l. induction l as [|y r IH]; cbn; intros N I.
  - constructor; auto.
  - inversion N; subst. zb; cbn.
    + constructor; auto.
    + constructor; [|apply IH; auto]. unfold idsw. rewrite in_map_iff. intros (z & E & Z).
      apply ins_in in Z as [->|Z]; [intuition|]. match goal with H : ~ In (snd y) _ |- _ => apply H end.
      rewrite <- E. now apply in_map.
Qed.

(** Heap lemmas. *)
Lemma nth_set : forall l i j x, (i < length l)%nat ->
  nth_error (set_nth l i x) j = if Nat.eqb j i then Some x else nth_error l j.
Proof.
  induction l as [|y r IH]; intros [|i] [|j] x L; cbn in *; try lia; auto. apply IH. lia.
Qed.
Lemma len_set : forall l i x, length (set_nth l i x) = length l.
Proof. induction l as [|y r IH]; intros [|i] x; cbn; auto. Qed.
Lemma nth_lt : forall (l : list node) i n, nth_error l i = Some n -> (i < length l)%nat.
Proof. intros l i n E. apply nth_error_Some. congruence. Qed.

Lemma next_same : forall h i nx n, nth_error h i = Some n -> nth_error (set_next h i nx) i = Some (Node nx (n_tp n)).
Proof. intros h i nx n E. unfold set_next. rewrite E, nth_set by (eapply nth_lt; eauto). now rewrite Nat.eqb_refl. Qed.
Lemma next_same' : forall h i nx a tp, nth_error h i = Some (Node a tp) -> nth_error (set_next h i nx) i = Some (Node nx tp).
Proof. intros h i nx a tp E. apply (next_same _ _ nx) in E. exact E. Qed.
Lemma next_other : forall h i nx j, j <> i -> nth_error (set_next h i nx) j = nth_error h j.
Proof.
  intros h i nx j N. unfold set_next. destruct (nth_error h i) eqn:E; auto.
  rewrite nth_set by (eapply nth_lt; eauto). apply Nat.eqb_neq in N. now rewrite N.
Qed.
Lemma len_next : forall h i nx, length (set_next h i nx) = length h.
Proof. intros. unfold set_next. destruct (nth_error h i); auto. apply len_set. Qed.

Inductive chain (h : list node) : option nat -> waiting -> Prop :=
| ChNil : chain h None []
| ChCons : forall i nx tp l, nth_error h i = Some (Node nx tp) -> chain h nx l -> chain h (Some i) ((tp, i) :: l).

Lemma chain_ext : forall h h' p l, chain h p l -> (forall i, In i (idsw l) -> nth_error h' i = nth_error h i) -> chain h' p l.
Proof.
  induction 1; intro E; [constructor|econstructor].
  - rewrite E; eauto. now left.
  - apply IHchain. intros j J. apply E. now right.
Qed.
Lemma chain_lt : forall h p l, chain h p l -> forall i, In i (idsw l) -> (i < length h)%nat.
Proof. induction 1; intros j J; [destruct J|]. destruct J as [<-|J]; auto. eapply nth_lt; eauto. Qed.

Lemma insert_after : forall h i ni, nth_error h i = Some ni ->
  forall l cur tc fuel, chain h (Some cur) ((tc, cur) :: l) -> ~ In i (idsw ((tc, cur) :: l)) ->
  NoDup (idsw ((tc, cur) :: l)) -> tc <= n_tp ni -> (length l < fuel)%nat ->
  exists k c, walk fuel h (n_tp ni) cur = Some k /\ nth_error h k = Some c /\ In k (idsw ((tc, cur) :: l)) /\
    chain (set_next (set_next h i (n_next c)) k (Some i)) (Some cur) ((tc, cur) :: ins (n_tp ni, i) l).
Proof.
  intros h i ni Hi. induction l as [|[tn nx] l IH]; intros cur tc fuel C NI ND LE F; destruct fuel as [|f]; try (cbn in F; lia).
  - inversion C as [|? nxt ? ? HC C']; subst. inversion C'; subst. exists cur, (Node None tc). cbn. rewrite HC. cbn.
    split; auto. split; auto. split; auto. cbn in NI.
    apply ChCons with (nx := Some i).
    + eapply next_same'. rewrite next_other by intuition. eauto.
    + apply ChCons with (nx := None); [|constructor]. rewrite next_other by intuition.
      erewrite next_same by eauto. reflexivity.
  - inversion C as [|? nxt ? ? HC C']; subst. inversion C' as [|? nxt' ? ? HN C'']; subst.
    cbn [walk]. rewrite HC. cbn [n_next]. rewrite HN. cbn [n_tp ins fst].
    assert (IC: i <> cur) by (cbn in NI; intuition).
    assert (INX: i <> nx) by (cbn in NI; intuition).
    assert (CNX: cur <> nx) by (inversion ND; subst; cbn in *; intuition).
    destruct (Z.ltb_spec (n_tp ni) tn).
    + exists cur, (Node (Some nx) tc). repeat split; auto. now left.
      apply ChCons with (nx := Some i).
      * eapply next_same'. rewrite next_other by auto. eauto.
      * apply ChCons with (nx := Some nx).
        -- rewrite next_other by auto. erewrite next_same by eauto. reflexivity.
        -- eapply chain_ext; [exact C'|]. intros j J. rewrite !next_other; auto.
           ++ intro; subst. apply NI. now right.
           ++ intro; subst. inversion ND; subst. contradiction.
    + destruct (IH nx tn f) as (k & c & W & K & IK & CH); auto.
      * intro J. apply NI. now right.
      * now inversion ND.
      * cbn in F. lia.
      * exists k, c. split; auto. split; auto. split; [right; auto|].
        apply ChCons with (nx := Some nx).
        -- rewrite !next_other; auto. intro; subst. inversion ND; contradiction.
        -- exact CH.
Qed.

Lemma emplace_ok : forall q i ni l, nth_error (p_heap q) i = Some ni -> chain (p_heap q) (p_head q) l ->
  NoDup (idsw l) -> ~ In i (idsw l) ->
  exists q', emplace_impl q i = Some q' /\ length (p_heap q') = length (p_heap q) /\
    chain (p_heap q') (p_head q') (ins (n_tp ni, i) l).
Proof.
  intros [h hd] i ni l Hi C ND NI. cbn [p_heap p_head] in *. unfold emplace_impl. cbn [p_heap p_head]. rewrite Hi.
  inversion C as [|j nx tp l' HJ C']; subst.
  - eexists. split; [reflexivity|]. cbn. split; [apply len_next|].
    apply ChCons with (nx := None); [|constructor]. erewrite next_same by eauto. reflexivity.
  - rewrite HJ. cbn [n_tp ins fst]. destruct (Z.ltb_spec (n_tp ni) tp).
    + eexists. split; [reflexivity|]. cbn. split; [apply len_next|].
      apply ChCons with (nx := Some j). erewrite next_same by eauto. reflexivity.
      eapply chain_ext; [exact C|]. intros k K. apply next_other. intro; subst. contradiction.
    + destruct (insert_after h i ni Hi l' j tp (length h)) as (k & c & W & K & IK & CH); auto.
      * assert (L: (length (idsw ((tp, j) :: l')) <= length (seq 0 (length h)))%nat).
        { apply NoDup_incl_length; auto. intros x X. apply in_seq. split; [lia|]. cbn. exact (chain_lt _ _ _ C x X). }
        rewrite seq_length in L. unfold idsw in L. rewrite map_length in L. cbn in L. lia.
      * rewrite W, K. eexists. split; [reflexivity|]. cbn. rewrite !len_next. auto.
Qed.

Lemma idsw_sort : forall w i, In i (idsw (sortw w)) <-> In i (idsw w).
Proof.
  intros w i. unfold idsw. rewrite !in_map_iff. split; intros (x & E & I); exists x; split; auto; now apply sortw_in.
Qed.

(** The pointer structure represents the sorted waiting list. *)
Record QRep (q : pqueue) (n : nat) (w : waiting) : Prop := mkQRep {
  qr_len : length (p_heap q) = n;
  qr_chain : chain (p_heap q) (p_head q) (sortw w);
  qr_nd : NoDup (idsw (sortw w))
}.

Lemma existsb_ids : forall w i, existsb (fun x => Nat.eqb (snd x) i) w = false -> ~ In i (idsw w).
Proof.
  intros w i E I. unfold idsw in I. apply in_map_iff in I as (x & <- & I).
  assert (T: existsb (fun y => Nat.eqb (snd y) (snd x)) w = true) by (apply existsb_exists; exists x; rewrite Nat.eqb_refl; auto).
  congruence.
Qed.

Lemma q_step_ok : forall q n w out o st, QRep q n w -> q_spec1 (Some (n, w, out)) o = Some st ->
  exists q', q_op (Some (q, out)) o = Some (q', snd st) /\ QRep q' (fst (fst st)) (snd (fst st)).
Proof.
  intros q n w out o st [L C ND] E. destruct o as [tp|i tp|]; cbn [q_spec1 q_op] in *.
  - inversion E; subst; clear E. cbn [fst snd]. unfold q_new.
    destruct (emplace_ok (PQ (p_heap q ++ [Node None tp]) (p_head q)) (length (p_heap q)) (Node None tp) (sortw w)) as (q' & -> & L' & C'); auto.
    + cbn. rewrite nth_error_app2, Nat.sub_diag by lia. reflexivity.
    + cbn. eapply chain_ext; [exact C|]. intros i I. apply nth_error_app1. eapply chain_lt; eauto.
    + intro I. eapply chain_lt in I; eauto. lia.
    + exists q'. split; auto. cbn in *. rewrite app_length in L'. cbn in L'. constructor; rewrite ?sortw_snoc; auto; [lia|].
      apply ins_nodup; auto. cbn. intro I. eapply chain_lt in I; eauto. lia.
  - destruct ((i <? n)%nat && negb (existsb (fun x => Nat.eqb (snd x) i) w)) eqn:B; inversion E; subst; clear E. cbn [fst snd].
    apply andb_true_iff in B as [B1 B2]. apply negb_true_iff, existsb_ids in B2. unfold q_again. rewrite B1. apply Nat.ltb_lt in B1.
    assert (NI: ~ In i (idsw (sortw w))) by (rewrite idsw_sort; auto).
    destruct (nth_error (p_heap q) i) as [ni|] eqn:Hi; [|apply nth_error_None in Hi; lia].
    unfold set_timepoint. rewrite Hi.
    destruct (emplace_ok (PQ (set_nth (p_heap q) i (Node (n_next ni) tp)) (p_head q)) i (Node (n_next ni) tp) (sortw w)) as (q' & -> & L' & C'); auto.
    + cbn. rewrite nth_set, Nat.eqb_refl by auto. reflexivity.
    + cbn. eapply chain_ext; [exact C|]. intros j J. rewrite nth_set by auto.
      assert (N: j <> i) by (intro; subst; contradiction). apply Nat.eqb_neq in N. now rewrite N.
    + exists q'. split; auto. cbn in *. rewrite len_set in L'. constructor; rewrite ?sortw_snoc; auto. apply ins_nodup; auto.
  - pose proof (first_min_sort w) as F. destruct (first_min w) as [[[tp i] w']|]; inversion E; subst; clear E. cbn [fst snd].
    rewrite F in *. inversion C as [|j nx ? ? HJ C' HE]; subst. unfold q_pop. rewrite <- HE.
    rewrite HJ. eexists. split; [reflexivity|]. constructor; cbn; auto. cbn in ND. now inversion ND.
Qed.

Lemma q_spec_none : forall ops, fold_left q_spec1 ops None = None.
Proof. induction ops; cbn; auto. Qed.

Theorem queue_ok : forall ops n w out, q_spec ops = Some (n, w, out) ->
  exists q, q_run ops = Some (q, out) /\ q_is_empty q = match w with [] => true | _ => false end.
Proof.
  intros ops n w out E.
  assert (G: forall ops q n w out st, QRep q n w -> fold_left q_spec1 ops (Some (n, w, out)) = Some st ->
    exists q', fold_left q_op ops (Some (q, out)) = Some (q', snd st) /\ QRep q' (fst (fst st)) (snd (fst st))).
  { clear. induction ops as [|o ops IH]; intros q n w out st R E; cbn [fold_left] in *.
    - inversion E; subst. eauto.
    - destruct (q_spec1 (Some (n, w, out)) o) as [[[n' w'] out']|] eqn:S; [|rewrite q_spec_none in E; discriminate].
      destruct (q_step_ok _ _ _ _ _ _ R S) as (q' & -> & R'). cbn [fst snd] in *. eauto. }
  destruct (G ops (PQ [] None) 0%nat [] [] (n, w, out)) as (q & E' & R); auto.
  - constructor; cbn; auto; constructor.
  - exists q. split; auto. destruct R as [_ C _]. cbn [fst snd] in C. unfold q_is_empty. destruct w as [|x w].
    + inversion C; subst. reflexivity.
    + inversion C as [E0 E1|]; subst; auto. symmetry in E1. apply sortw_nil in E1. discriminate.
Qed.
