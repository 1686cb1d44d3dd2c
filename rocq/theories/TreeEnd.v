(** What the operators of an expression have done when everything has come to an end. *)
From Verif Require Import Base Machine MachineProofs Concur ObserverSpec ObserverModel MultiSpec MultiModel MultiLin MultiCount MultiRace MultiProofs MultiProps.
From Verif Require Import OpsModel ChainSpec ChainModel ChainProofs TreeSpec TreeModel TreeProofs.
Open Scope nat_scope.

(** ** At the end of an execution every event has its place in the history *)
Section Complete.
  Context {A B : Type} (o : mop A B) (D : machine B) (d0 : mst D).
  Notation ist := (istep o D (fun _ => @nil (nat * ev A))).

  Lemma visible_all : forall progs tr c, gexec ist (g_init o D d0, threads o progs) tr c -> gfinished c ->
    exists tr', erase tr' = tr /\ forall i, per i tr' = expand i (map fst (nth i progs [])).
  Proof.
    intros progs tr c X F.
    destruct (lin_generic o D progs (fun _ _ _ => True)) with (d0 := d0) (tr := tr) (c := c) as (cu & tr' & E & _ & _ & H); auto.
    - intros g cu t i e st k l g' k' n _ C _. exists cu, t, l. split; [apply lmove_refl|]. auto.
    - intros g cu t i e st k l g' n _ C _. destruct l.
      + exists cu, t. split; [apply lmove_refl|]. auto.
      + exists (upd_run o cu i (Run o e st k true)), (t ++ [Lin i e]). split; [now apply lmove_lin|]. rewrite upd_same. auto.
    - exists tr'. split; auto. intro i. apply H. exact F.
  Qed.

  (** A prefix of an expansion that shows everything is everything. *)
  Lemma erase_per : forall i (tr : list (alab A)), erase (per i tr) = filter (fun l => match l with Inv j _ | Ret j _ => j =? i end) (erase tr).
  Proof.
    unfold erase, per. intros i tr. induction tr as [|[[j e|j e]|j e] tr IH]; cbn [filter flat_map at_src app]; auto.
    - destruct (j =? i); cbn; now rewrite IH.
    - destruct (j =? i); cbn; now rewrite IH.
    - destruct (j =? i); cbn; auto.
  Qed.
  Lemma erase_expand : forall i (p : list (ev A)), length (erase (expand i p)) = 2 * length p.
  Proof. induction p as [|e p IH]; auto. change (expand i (e :: p)) with ([Vis (Inv i e); Lin i e; Vis (Ret i e)] ++ expand i p). rewrite erase_app, app_length, IH. cbn. lia. Qed.
  Lemma prefix_full : forall i (p : list (ev A)) a, prefix a (expand i p) -> length (erase a) = 2 * length p -> a = expand i p.
  Proof.
    intros i p a (r & E) L. assert (Z : erase r = []).
    { apply length_zero_iff_nil. pose proof (erase_expand i p) as K. rewrite E, erase_app, app_length in K. lia. }
    destruct r as [|x r]; [now rewrite app_nil_r in E|]. exfalso.
    destruct (@exists_last _ (x :: r) ltac:(discriminate)) as (r' & y & R). rewrite R in *. clear R x.
    destruct p as [|e p] using rev_ind; [destruct a; [destruct r'; discriminate|discriminate]|]. clear IHp.
    change (expand i (p ++ [e])) with (flat_map (fun e => [Vis (Inv i e); Lin i e; Vis (Ret i e)]) (p ++ [e])) in E. rewrite flat_map_app in E. cbn [flat_map app] in E.
    rewrite app_assoc in E. change [Vis (Inv i e); Lin i e; Vis (Ret i e)] with ([Vis (Inv i e); Lin i e] ++ [Vis (Ret i e)]) in E. rewrite app_assoc in E.
    apply app_inj_tail in E. destruct E as (_ & <-). rewrite erase_app in Z. cbn in Z. now destruct (erase r').
  Qed.

  Lemma lin_complete : forall progs tr c h, gexec ist (g_init o D d0, threads o progs) tr c -> gfinished c ->
    linearized (map (map fst) progs) tr h -> shuffle (map (map fst) progs) h.
  Proof.
    intros progs tr c h X F (t1 & E1 & <- & P1) i. destruct (visible_all progs tr c X F) as (t2 & E2 & P2).
    change (evs_of i (lins t1) = nth i (map (map fst) progs) []). rewrite evs_lins.
    assert (NTH : nth i (map (map fst) progs) [] = map fst (nth i progs [])) by (change (@nil (ev A)) with (map (@fst (ev A) bool) []); apply map_nth).
    specialize (P1 i). rewrite NTH in *. rewrite (prefix_full i _ _ P1); [apply evs_expand|].
    rewrite erase_per, E1, <- E2, <- erase_per, P2. apply erase_expand.
  Qed.
End Complete.

(** ** The operators *)
Definition ends_as {V} (o : mop V V) (out : hist V -> nat -> ev V -> list (ev V)) : Prop :=
  forall (D : machine V) (d0 : mst D) progs tr c, lawful D ->
    gexec (istep o D (fun _ => [])) (g_init o D d0, threads o progs) tr c -> gfinished c ->
    exists h, shuffle (map (map fst) progs) h /\ g_down (fst c) = mrun D d0 (outs out h).

Lemma outs_ext : forall A B (f g : hist A -> nat -> ev A -> list (ev B)) h, (forall p i e, f p i e = g p i e) -> outs f h = outs g h.
Proof. intros A B f g h H. unfold outs. generalize (@nil (nat * ev A)). induction (live h) as [|(i, e) l IH]; intro p; cbn [outs_from]; auto. now rewrite H, IH. Qed.

Section MergeWith.
  Context {V : Type} (n : nat) (D : machine V) (L : lawful D) (d0 : mst D).
  Definition mw_post (e : ev V) (i : nat) : ev V := e.

  Theorem merge_with_linearizable : forall progs tr c,
    gexec (istep (merge_with_op V n) D (fun _ => [])) (g_init (merge_with_op V n) D d0, threads (merge_with_op V n) progs) tr c ->
    exists h, linearized (map (map fst) progs) tr h /\
      (g_lock (fst c) = false -> g_down (fst c) = mrun D d0 (outs (merge_with_out n) h)) /\
      (gfinished c -> g_lock (fst c) = false).
  Proof.
    apply (counting_linearizable (merge_with_op V n) D (merge_with_out n) (fun _ => n) ms_needed (fun _ _ => True) (fun _ _ => true) mw_post L); auto.
    - intros m s i [v|x|]; cbn; [right; eauto|right; eauto|]. destruct (ms_needed s =? 1); [right|left]; eauto.
    - intros s h i _ R. cbn in R. now apply Nat.ltb_lt in R.
    - intros m s h i v _ LI EN. cbn. auto.
    - intros s h i v _ LI EN _. split; auto. exists s. cbn. auto.
    - intros m s i. eexists. cbn. split; [reflexivity|]. cbn. auto.
  Qed.
End MergeWith.

Lemma taken_some : forall V (l : list V), taken (map Some l) = l.
Proof. induction l as [|v l IH]; cbn; auto. unfold taken in *. now rewrite IH. Qed.

Lemma kind_ends : forall V (k : kind V) n, ends_as (kind_op k n) (kind_out k n).
Proof.
  intros V k n D d0 progs tr c L X F. destruct k as [|f|f|f|]; cbn [kind_op kind_out] in *.
  - destruct (merge_with_linearizable n D L d0 progs tr c X) as (h & H1 & H2 & H3). exists h. split; [eapply lin_complete; eauto|auto].
  - destruct (C35_zip _ _ n (fun l => Ok (f (taken l))) D L d0 ltac:(eauto) progs tr c X) as (h & H1 & H2 & H3). exists h. split; [eapply lin_complete; eauto|].
    rewrite (H2 (H3 F)). f_equal. apply outs_ext. intros p i e. unfold zip_out. destruct e; auto. destruct (_ <? _); auto. destruct (row _ _ _) as [l|]; auto. now rewrite taken_some.
  - destruct (C36_combine_latest _ _ n (fun l => Ok (f l)) D L d0 ltac:(eauto) progs tr c X) as (h & H1 & H2 & H3). exists h. split; [eapply lin_complete; eauto|auto].
  - destruct (C37_with_latest_from _ _ (n - 1) (fun v l => Ok (f v l)) D L d0 ltac:(eauto) progs tr c X) as (h & H1 & H2 & H3). exists h. split; [eapply lin_complete; eauto|auto].
  - destruct (C38_take_until _ D L d0 progs tr c X) as (h & os & H1 & _ & H2 & H3). destruct (H3 F) as (-> & _). exists h. split; [eapply lin_complete; eauto|exact H2].
Qed.

(** ** Chains only add to what their observer has been given *)
Definition reaches {V} (D : machine V) (d d' : mst D) : Prop := exists l, d' = mrun D d l.
Lemma reach_refl : forall V (D : machine V) d, reaches D d d.
Proof. intros. now exists []. Qed.
Lemma reach_step : forall V (D : machine V) d d' e, reaches D d d' -> reaches D d (mstep D d' e).
Proof. intros V D d d' e (l & ->). exists (l ++ [e]). unfold mrun. now rewrite fold_left_app. Qed.
Lemma reach_trans : forall V (D : machine V) a b c, reaches D a b -> reaches D b c -> reaches D a c.
Proof. intros V D a b c (l & ->) (m & ->). exists (l ++ m). unfold mrun. now rewrite fold_left_app. Qed.

Lemma flush_reaches : forall A (D : machine A) data n pos d d0, reaches D d0 d -> reaches D d0 (snd (tl_flush D data n pos d)).
Proof.
  induction n as [|n IH]; intros pos d d0 H; cbn; auto. destruct (nth_error data pos); apply IH; auto using reach_step.
Qed.

Lemma op_reaches : forall A B (o : libop A B) (D : machine B) s d,
  (forall v, reaches D d (snd (fst (op_next (denote o) D s d v)))) /\
  (forall x, reaches D d (snd (op_err (denote o) D s d x))) /\
  reaches D d (snd (op_done (denote o) D s d)).
Proof.
  intros A B o D s d. pose proof (reach_refl _ D d) as R0.
  destruct o; cbn in *; (split; [intro|split; [intro|]]); unfold fwd_err, fwd_done; cbn;
    repeat match goal with |- context [match ?x with _ => _ end] => destruct x eqn:? end; cbn;
    repeat match goal with H : (_, _) = (_, _) |- _ => injection H as ? ?; subst end; auto using reach_step.
  - destruct s; injection Heqp as <- <-; auto using reach_step.
  - destruct s; injection Heqp as <- <-; auto using reach_step.
  - match type of Heqp with tl_flush D ?a ?b ?c d = _ => pose proof (flush_reaches _ D a b c d d R0) as K end. rewrite Heqp in K. auto using reach_step.
Qed.

Lemma lift_reaches : forall A B (o : libop A B) (D : machine B) s e, reaches D (snd s) (snd (mstep (lift (denote o) D) s e)).
Proof.
  intros A B o D (s, d) e. pose proof (reach_refl _ D d) as R0. destruct (op_reaches A B o D s d) as (N & E & C).
  destruct e as [v|x|]; cbn [mstep lift lift_step].
  - unfold lift_next. cbn [fst snd]. destruct (mdisp D d); auto. specialize (N v). destruct (op_next _ _ _ _ _) as ((s', d'), [x|]); cbn [fst snd] in *; auto.
    unfold lift_err. cbn [fst snd]. destruct (mdisp D d'); auto. eapply reach_trans; [exact N|]. apply op_reaches.
  - unfold lift_err. cbn [fst snd]. destruct (mdisp D d); auto.
  - unfold lift_done. cbn [fst snd]. destruct (mdisp D d); auto.
Qed.

Lemma mrun_reaches : forall A B (M : machine A) (D : machine B) (f : mst M -> mst D), (forall s e, reaches D (f s) (f (mstep M s e))) ->
  forall l s, reaches D (f s) (f (mrun M s l)).
Proof. intros A B M D f H. induction l as [|e l IH]; intro s; [apply reach_refl|]. rewrite mrun_cons. eapply reach_trans; [apply H|apply IH]. Qed.

Lemma build_reaches : forall A C (c : chain A C) D s l, reaches D (bottom c D s) (bottom c D (mrun (build c D) s l)).
Proof.
  induction c as [A|A B C o r IH]; intros D s l; cbn [build bottom]; [now exists l|].
  apply (mrun_reaches A C (lift (denote o) (build r D)) D (fun s => bottom r D (snd s))). intros s' e.
  destruct (lift_reaches A B o (build r D) s' e) as (l' & E). rewrite E. apply IH.
Qed.

(** ** The record at an inner place *)
Lemma record_grows : forall V l s, exists l', o_log (mrun (record_of V) s l) = o_log s ++ l'.
Proof.
  intros V l. induction l as [|e l IH]; intro s; [exists []; now rewrite app_nil_r|]. rewrite mrun_cons.
  destruct (IH (mstep (record_of V) s e)) as (l' & E). rewrite E.
  assert (K : exists k, o_log (mstep (record_of V) s e) = o_log s ++ k).
  { destruct s as [f u r l0], e as [v|x|], f; cbn; solve [eexists; reflexivity | exists []; cbn; now rewrite app_nil_r]. }
  destruct K as (k & ->). rewrite <- app_assoc. eauto.
Qed.

Lemma record_heard_from : forall V (l : list (ev V)) s, o_flag s = false -> o_log (mrun (record_of V) s l) = o_log s ++ heard l.
Proof.
  intros V l. induction l as [|e l IH]; intros s F; [now rewrite app_nil_r|]. rewrite mrun_cons. destruct e as [v|x|].
  - rewrite IH; destruct s as [f u r l0]; cbn in *; subst; cbn; auto. unfold heard. cbn. now rewrite <- app_assoc.
  - rewrite (mrun_dead _ (record_of V) (leaf_lawful _ _)); destruct s as [f u r l0]; cbn in *; subst; cbn; auto.
  - rewrite (mrun_dead _ (record_of V) (leaf_lawful _ _)); destruct s as [f u r l0]; cbn in *; subst; cbn; auto.
Qed.
Lemma record_heard : forall V (l : list (ev V)), o_log (mrun (record_of V) o_init l) = heard l.
Proof. intros. now rewrite record_heard_from. Qed.

Lemma run_heard : forall V (M : machine V), lawful M -> forall l s, mrun M s (heard l) = mrun M s l.
Proof.
  intros V M L. induction l as [|e l IH]; intro s; auto. destruct e as [v|x|].
  - change (heard (Next v :: l)) with (Next v :: heard l). now rewrite !mrun_cons.
  - rewrite mrun_cons. symmetry. apply mrun_dead; auto. now apply law_term.
  - rewrite mrun_cons. symmetry. apply mrun_dead; auto. now apply law_term.
Qed.

(** ** Places in an expression *)
Section TreeInd.
  Context {V : Type} (P : tree V -> Prop) (HS : forall p, P (Src p)) (HO : forall k c ts, Forall P ts -> P (Op k c ts)).
  Fixpoint tree_ind2 (t : tree V) : P t :=
    match t with
    | Src p => HS p
    | Op k c ts => HO k c ts ((fix all ts : Forall P ts := match ts with [] => Forall_nil P | t :: r => Forall_cons t (tree_ind2 t) (all r) end) ts)
    end.
End TreeInd.

Section Places.
  Context {V : Type}.
  Implicit Types (T t : tree V) (p q r : path).

  Lemma sub_app : forall T t p, sub T p = Some t -> forall r, sub T (r ++ p) = sub t r.
  Proof. intros T t p H. induction r as [|i r IH]; cbn [app sub]; auto. now rewrite IH. Qed.
  Lemma sub_none : forall T p, sub T p = None -> forall r, sub T (r ++ p) = None.
  Proof. intros T p H. induction r as [|i r IH]; cbn [app sub]; auto. now rewrite IH. Qed.
  Lemma sub_src : forall (l : list (ev V)) r t, sub (Src l) r = Some t -> r = [] /\ t = Src l.
  Proof.
    intros l r. destruct r as [|i r] using rev_ind; intros t H; [now injection H as <-|]. clear IHr.
    rewrite sub_none in H by reflexivity. discriminate.
  Qed.
  Lemma sub_op : forall k c (ts : list (tree V)) r i, sub (Op k c ts) (r ++ [i]) = match nth_error ts i with Some t => sub t r | None => None end.
  Proof. intros k c ts r i. destruct (nth_error ts i) as [t|] eqn:E; [now apply sub_app|now apply sub_none]. Qed.

  Lemma places_op : forall k c p (ts : list (tree V)) x, In x (places p (Op k c ts)) <-> exists j t, nth_error ts j = Some t /\ In x (places (j :: p) t).
  Proof.
    intros k c p ts x. cbn [places].
    enough (G : forall ts b, In x ((fix all i ts := match ts with [] => [] | t :: r => places (i :: p) t ++ all (S i) r end) b ts) <->
                 exists j t, nth_error ts j = Some t /\ In x (places ((b + j) :: p) t)) by apply (G ts 0).
    induction ts0 as [|t r IH]; intro b.
    - split; [intros []|]. intros ([|j] & t & H & _); discriminate.
    - rewrite in_app_iff, IH. split.
      + intros [H|(j & t' & H & I)]; [exists 0, t; rewrite Nat.add_0_r; auto|]. exists (S j), t'. now rewrite Nat.add_succ_r.
      + intros ([|j] & t' & H & I); cbn in H; [injection H as <-; rewrite Nat.add_0_r in I; auto|]. right. exists j, t'. now rewrite Nat.add_succ_r in I.
  Qed.

  Lemma places_sub : forall t p q l, In (q, l) (places p t) <-> exists r, q = r ++ p /\ sub t r = Some (Src l).
  Proof.
    induction t as [ev|k c ts IH] using tree_ind2; intros p q l.
    - cbn. split.
      + intros [H|[]]. injection H as <- <-. now exists [].
      + intros (r & -> & H). apply sub_src in H. destruct H as (-> & H). injection H as <-. auto.
    - rewrite places_op. rewrite Forall_forall in IH. split.
      + intros (j & t & H & I). apply IH in I; [|eapply nth_error_In; eauto]. destruct I as (r & -> & I). exists (r ++ [j]). split; [now rewrite <- app_assoc|]. now rewrite sub_op, H.
      + intros (r & -> & H). destruct r as [|j r] using rev_ind; [discriminate|]. clear IHr. rewrite sub_op in H. destruct (nth_error ts j) as [t|] eqn:E; [|discriminate].
        exists j, t. split; auto. apply IH; [eapply nth_error_In; eauto|]. exists r. now rewrite <- app_assoc.
  Qed.

  Lemma places_below : forall t p q, In q (map fst (places p t)) -> exists r, q = r ++ p.
  Proof. intros t p q H. apply in_map_iff in H. destruct H as ((q', l) & <- & H). apply places_sub in H. destruct H as (r & H & _). now exists r. Qed.

  Lemma NoDup_app_intro : forall X (a b : list X), NoDup a -> NoDup b -> (forall x, In x a -> In x b -> False) -> NoDup (a ++ b).
  Proof.
    induction a as [|x a IH]; intros b Na Nb H; auto. inversion Na; subst. cbn. constructor.
    - rewrite in_app_iff. intros [I|I]; [contradiction|]. apply (H x); auto. now left.
    - apply IH; auto. intros y I J. apply (H y); auto. now right.
  Qed.
  Lemma places_nodup : forall t p, NoDup (map fst (places p t)).
  Proof.
    induction t as [ev|k c ts IH] using tree_ind2; intro p; [repeat constructor; intros []|]. cbn [places].
    enough (G : forall ts b, Forall (fun t => forall p, NoDup (map fst (places p t))) ts ->
              NoDup (map fst ((fix all i ts := match ts with [] => [] | t :: r => places (i :: p) t ++ all (S i) r end) b ts)) /\
              forall q, In q (map fst ((fix all i ts := match ts with [] => [] | t :: r => places (i :: p) t ++ all (S i) r end) b ts)) -> exists j r, b <= j /\ q = r ++ j :: p) by now apply G.
    clear. induction ts as [|t r IH]; intros b H; [split; [constructor|intros q []]|]. inversion H as [|? ? H1 H2]; subst.
    destruct (IH (S b) H2) as (ND & B). rewrite map_app. split.
    - apply NoDup_app_intro; auto. intros q I J. apply places_below in I. destruct I as (r1 & ->). destruct (B _ J) as (j & r2 & L & E).
      change (b :: p) with ([b] ++ p) in E. change (j :: p) with ([j] ++ p) in E. rewrite !app_assoc in E. apply app_inv_tail in E. apply app_inj_tail in E. lia.
    - intros q I. apply in_app_or in I. destruct I as [I|I]; [apply places_below in I; destruct I as (r1 & ->); exists b, r1; auto|]. destruct (B _ I) as (j & r2 & L & E). exists j, r2. split; auto. lia.
  Qed.

  Lemma proper_sub : forall T r t, proper T -> sub T r = Some t -> proper t.
  Proof.
    induction r as [|i r IH]; intros t P H; [now injection H as <-|]. cbn [sub] in H. destruct (sub T r) as [[l|k c ts]|] eqn:E; try discriminate.
    specialize (IH _ P eq_refl). cbn [proper] in IH. destruct IH as (_ & _ & A). clear - A H. revert i H. induction ts as [|x ts IH]; intros [|i] H; try discriminate.
    - injection H as <-. apply A.
    - destruct A as (_ & A). eapply IH; eauto.
  Qed.
End Places.

(** ** No execution goes on forever *)
Section Weight.
  Context {V : Type}.
  Definition settles (o : mop V V) : Prop :=
    (forall n s i e, snd (mo_pre o n s i e) = PMore -> n < 4) /\ (forall s p, snd (mo_body o s p) = None).

  Definition pc_weight {o : mop V V} (k : pc o) : nat :=
    match k with
    | P0 => 14 | PPre n => 9 + (4 - n) | PLock _ => 5 | PBody _ => 4
    | PCall _ None => 3 | PUnlock None => 2 | PFin => 1
    | PCatch _ => 6 | PUnlock (Some _) => 7 | PCall _ (Some _) => 8
    end.
  Definition weight {o : mop V V} (x : item o) : nat := match x with IEv _ _ _ => 15 | IRun _ _ _ k => pc_weight k end.

  Lemma step_weight : forall (o : mop V V) D g x g' its ls, settles o -> istep o D (fun _ => []) g x = Some (g', its, ls) ->
    list_sum (map weight its) < weight x.
  Proof.
    intros o D g x g' its ls (HM & HB) H. destruct x as [i e st|i e st k]; cbn [istep] in H.
    - injection H as <- <- <-. cbn. lia.
    - destruct (pstep o D (fun _ => []) g i e st k) as [((g1, [k'|]), n)|] eqn:P; try discriminate; injection H as <- <- <-.
      + assert (n = [] /\ pc_weight k' < pc_weight k) as (-> & W).
        { destruct k; cbn [pstep] in P.
          - repeat match type of P with (if ?b then _ else _) = _ => destruct b end; try discriminate. injection P as <- <- <-. cbn. auto with arith.
          - specialize (HM n0 (g_op g) i e). destruct (mo_pre o n0 (g_op g) i e) as (s, [| |p|x]); injection P as <- <- <-; cbn [pc_weight snd] in *; split; auto; try lia; specialize (HM eq_refl); lia.
          - destruct (g_lock g); try discriminate. injection P as <- <- <-. cbn. auto with arith.
          - specialize (HB (g_op g) p). destruct (mo_body o (g_op g) p) as ((s, l), t). cbn in HB. subst t. injection P as <- <- <-. cbn. auto with arith.
          - injection P as <- <- <-. split; [now destruct l|]. destruct t; cbn; lia.
          - injection P as <- <- <-. split; auto. destruct t; cbn; lia.
          - repeat match type of P with (if ?b then _ else _) = _ => destruct b end; try discriminate. injection P as <- <- <-. cbn. auto with arith.
          - discriminate. }
        cbn. lia.
      + assert (n = []) as ->.
        { destruct k; cbn [pstep] in P;
            repeat match type of P with
                   | (if ?b then _ else _) = _ => destruct b
                   | (let '(_, _) := ?x in _) = _ => destruct x
                   | match ?x with _ => _ end = _ => destruct x
                   end; try discriminate; now injection P as <- <-. }
        cbn. destruct k as [|?|?|?|? [?|]|[?|]|?|]; cbn; lia.
  Qed.

  Lemma kind_settles : forall (k : kind V) n, settles (kind_op k n).
  Proof.
    intros k n. destruct k as [|f|f|f|]; split; cbn; intros;
      repeat match goal with
             | H : context [match ?x with _ => _ end] |- _ => destruct x
             | |- context [match ?x with _ => _ end] => destruct x
             end; cbn in *; try discriminate; auto; try lia.
  Qed.

  Fixpoint lex (m : nat) (f g : nat -> nat) : Prop :=
    match m with 0 => False | S k => f k < g k \/ (f k = g k /\ lex k f g) end.
  Lemma lex_wf : forall m, well_founded (lex m).
  Proof.
    induction m as [|m IH]; intro f; [constructor; intros g []|].
    remember (f m) as x eqn:E. revert f E. induction x as [x IX] using lt_wf_ind. intros f.
    induction (IH f) as [f _ IF]. intros ->. constructor. intros g [L|(E & L)]; [now apply (IX (g m) L)|]. now apply IF.
  Qed.

  Context (N : path -> node V) (stale : path -> nat -> bool) (top : nat).
  Hypothesis SE : forall p, settles (nd_op (N p)).
  Definition tweight (d : nat) (x : titem N) : nat := match x with TI p y => if length p =? d then weight y else 0 end.
  Definition mass (thr : list (list (titem N))) (d : nat) : nat := list_sum (map (tweight d) (concat thr)).
  Definition low (thr : list (list (titem N))) : Prop := Forall (fun x => match x with TI p _ => length p < top end) (concat thr).

  Lemma calls_at : forall i p l k, Forall (fun x => match x with TI q _ => q = p end) (calls N stale i p k l).
  Proof. intros i p. induction l as [|e l IH]; intro k; cbn; constructor; auto. Qed.

  Lemma mass_app : forall (a b : list (titem N)) d, list_sum (map (tweight d) (a ++ b)) = list_sum (map (tweight d) a) + list_sum (map (tweight d) b).
  Proof. intros. now rewrite map_app, list_sum_app. Qed.

  Lemma tstep_mass : forall s x s' its ls, tstep N stale s x = Some (s', its, ls) ->
    match x with TI p _ =>
      Forall (fun y => match y with TI q _ => length q <= length p end) its /\
      (forall d, length p < d -> list_sum (map (tweight d) its) = tweight d x) /\
      list_sum (map (tweight (length p)) its) < tweight (length p) x
    end.
  Proof.
    intros s [p y] s' its ls H. cbn [tstep] in H. destruct (istep _ _ _ (s p) y) as [((g, is), l)|] eqn:E; [|discriminate]. injection H as <- <- <-.
    apply step_weight in E; auto. set (k := length (said N s p)). set (m := skipn k _). clearbody k m.
    assert (AB : Forall (fun x => match x with TI q _ => length q < length p end) (above N stale p k m)).
    { destruct p as [|i p]; cbn [above]; [constructor|]. eapply Forall_impl; [|apply calls_at]. intros [q z] ->. cbn. lia. }
    assert (Z : forall d, length p <= d -> list_sum (map (tweight d) (above N stale p k m)) = 0).
    { intros d L. induction AB as [|[q z] r Hq _ IH]; auto. cbn [map list_sum fold_right]. cbn. unfold list_sum in IH. rewrite IH. destruct (Nat.eqb_spec (length q) d); lia. }
    assert (M : forall d, list_sum (map (tweight d) (map (TI p) is)) = if length p =? d then list_sum (map weight is) else 0).
    { intro d. rewrite map_map. cbn. destruct (length p =? d); auto. clear. induction is; auto. }
    split; [|split].
    - apply Forall_app. split; [eapply Forall_impl; [|exact AB]; intros [q z]; lia|]. apply Forall_map, Forall_forall. auto.
    - intros d L. rewrite mass_app, Z, M by lia. cbn. destruct (Nat.eqb_spec (length p) d); lia.
    - rewrite mass_app, Z, M by lia. cbn. rewrite Nat.eqb_refl. lia.
  Qed.

  Lemma lex_at : forall m k (f g : nat -> nat), k < m -> (forall d, k < d -> f d = g d) -> f k < g k -> lex m f g.
  Proof.
    induction m as [|m IH]; intros k f g L H1 H2; [lia|]. cbn. destruct (Nat.eq_dec k m) as [->|NE]; auto. right. split; [apply H1; lia|]. apply (IH k); auto; lia.
  Qed.

  Lemma gstep_lex : forall c ls c', low (snd c) -> gstep (tstep N stale) c ls c' -> low (snd c') /\ lex top (mass (snd c')) (mass (snd c)).
  Proof.
    intros c ls c' LO G. inversion G as [s t1 x R t2 s' its l H]; subst. cbn [snd] in *. apply tstep_mass in H. destruct x as [p y]. destruct H as (H1 & H2 & H3).
    assert (LP : length p < top). { unfold low in LO. rewrite Forall_forall in LO. apply (LO (TI p y)). rewrite concat_app. apply in_or_app. right. now left. }
    split.
    - unfold low in *. rewrite Forall_forall in *. intros z I. rewrite concat_app in *. cbn [concat] in *. rewrite !in_app_iff in I. destruct I as [I|[[I|I]|I]].
      + apply LO. apply in_or_app. auto.
      + specialize (H1 _ I). destruct z. lia.
      + apply LO. apply in_or_app. right. right. apply in_or_app. auto.
      + apply LO. apply in_or_app. right. right. apply in_or_app. auto.
    - assert (E : forall d, mass (t1 ++ (its ++ R) :: t2) d + tweight d (TI p y) = mass (t1 ++ (TI p y :: R) :: t2) d + list_sum (map (tweight d) its)).
      { intro d. unfold mass. rewrite !concat_app. cbn [concat]. rewrite !mass_app. change (TI p y :: R) with ([TI p y] ++ R). rewrite mass_app. cbn [map list_sum fold_right]. lia. }
      apply (lex_at top (length p)); auto.
      + intros d L. specialize (E d). rewrite H2 in E by auto. lia.
      + specialize (E (length p)). lia.
  Qed.

  Lemma finite : forall c, low (snd c) -> Acc (fun c' c => exists ls, gstep (tstep N stale) c ls c') c.
  Proof.
    intros c. remember (mass (snd c)) as f eqn:E. revert c E. induction (lex_wf top f) as [f _ IH]. intros c -> L. constructor. intros c' (ls & G).
    destruct (gstep_lex _ _ _ L G) as (L' & X). now apply (IH (mass (snd c'))).
  Qed.
End Weight.

(** ** An expression *)
Section Whole.
  Context {V : Type} (T : tree V) (F : machine V) (f0 : mst F) (stale : path -> nat -> bool).
  Hypothesis top_op : exists k c ts, T = Op k c ts.
  Hypothesis PR : proper T.
  Notation N := (node_at T F f0).
  Definition ports (p : path) : nat := match sub T p with Some (Op _ _ ts) => length ts | _ => 0 end.

  Lemma w_grows : forall p d l, exists l', nd_log (N p) (mrun (nd_D (N p)) d l) = nd_log (N p) d ++ l'.
  Proof.
    intros p d l. revert d. unfold node_at. destruct p as [|i p], (sub T _) as [[ev|k c ts]|]; cbn [nd_log nd_D]; intro d; try apply record_grows; [now exists []|].
    destruct (build_reaches _ _ c (record_of V) d l) as (l' & E). rewrite E. apply record_grows.
  Qed.
  Lemma w_quiet : forall p, nd_log (N p) (nd_d0 (N p)) = [].
  Proof.
    intro p. unfold node_at. destruct p as [|i p], (sub T _) as [[ev|k c ts]|] eqn:E; cbn [nd_log nd_d0]; auto.
    apply (proper_sub T) in E; auto. destruct E as (_ & Q & _).
    pose proof (build_refines _ _ c (record_of V) (leaf_lawful _ _) o_init []) as B. rewrite Q in B. unfold mrun in B. cbn [fold_left] in B. now rewrite B.
  Qed.
  Lemma w_sub : forall q, In q (map fst (places [] T)) -> exists l, sub T q = Some (Src l).
  Proof. intros q H. apply in_map_iff in H. destruct H as ((q', l) & <- & H). apply places_sub in H. destruct H as (r & -> & H). rewrite app_nil_r. now exists l. Qed.
  Lemma w_rooted : forall q, In q (map fst (places [] T)) -> q <> [].
  Proof. intros q H ->. apply w_sub in H. destruct H as (l & H). destruct top_op as (k & c & ts & E). subst T. discriminate. Qed.
  Lemma w_outer : forall q q' r, In q (map fst (places [] T)) -> In q' (map fst (places [] T)) -> q' = r ++ q -> r = [].
  Proof. intros q q' r H H' ->. apply w_sub in H. destruct H as (l & H). apply w_sub in H'. destruct H' as (l' & H'). rewrite (sub_app _ _ _ H) in H'. now apply sub_src in H'. Qed.
  Lemma w_inports : forall q r i p, In q (map fst (places [] T)) -> q = r ++ i :: p -> i < ports p.
  Proof.
    intros q r i p H ->. apply w_sub in H. destruct H as (l & H). destruct (sub T (i :: p)) as [t|] eqn:E; [|now rewrite (sub_none _ _ E) in H].
    cbn [sub] in E. unfold ports. destruct (sub T p) as [[ev|k c ts]|]; try discriminate. apply nth_error_Some. congruence.
  Qed.
  Lemma w_ready : forall p s i, i < ports p -> mo_ready (nd_op (N p)) s i = true.
  Proof.
    intros p s i. revert s. unfold ports, node_at. destruct p as [|j p], (sub T _) as [[ev|k c ts]|] eqn:E; cbn [nd_op]; intros s L; try lia;
      apply (proper_sub T) in E; auto; destruct E as (Q & _); destruct k; cbn in *; try (apply Nat.ltb_lt; lia); try (apply Nat.leb_le; lia); auto.
  Qed.
  Lemma w_settles : forall p, settles (nd_op (N p)).
  Proof. intro p. unfold node_at. destruct p as [|j p], (sub T _) as [[ev|k c ts]|] eqn:E; cbn [nd_op]; try apply kind_settles; apply (kind_settles KMerge 0). Qed.

  Notation srcs := (places [] T).
  Notation run := (gexec (tstep N stale) (start T F f0 stale)).

  Theorem whole_progress : forall tr c, run tr c -> gfinished c \/ exists ls c', gstep (tstep N stale) c ls c'.
  Proof. apply (tree_progress N stale ports srcs w_grows w_quiet w_rooted (places_nodup T []) w_outer w_inports w_ready). Qed.

  Lemma whole_low : exists top, low N top (snd (start T F f0 stale)).
  Proof.
    unfold low. generalize (concat (snd (start T F f0 stale))). induction l as [|[p y] l (t & IH)]; [now exists 0|].
    exists (t + S (length p)). constructor; [lia|]. eapply Forall_impl; [|exact IH]. intros [q z]. lia.
  Qed.
  Theorem whole_acc : Acc (fun c' c => exists ls, gstep (tstep N stale) c ls c') (start T F f0 stale).
  Proof. destruct whole_low as (top & L). apply (finite N stale top w_settles). exact L. Qed.

  Lemma stream_src : forall s p l, sub T p = Some (Src l) -> stream N srcs s p = l.
  Proof.
    intros s p l H. unfold stream. assert (I : In (p, l) srcs) by (apply places_sub; exists p; now rewrite app_nil_r).
    destruct (assoc p srcs) as [x|] eqn:E.
    - apply assoc_in, places_sub in E. destruct E as (r & -> & E). rewrite app_nil_r in H. congruence.
    - apply assoc_none in E. destruct E. now apply (in_map fst) in I.
  Qed.
  Lemma stream_op : forall s p k c ts, sub T p = Some (Op k c ts) -> stream N srcs s p = said N s p.
  Proof. intros s p k c ts H. unfold stream. rewrite none_assoc; auto. intro I. apply w_sub in I. destruct I as (l & I). congruence. Qed.

  Lemma node_inner : forall i p k c ts, sub T (i :: p) = Some (Op k c ts) ->
    N (i :: p) = Node V (kind_op k (length ts)) (build c (record_of V)) (build_init c (record_of V) o_init) (fun d => o_log (bottom c (record_of V) d)).
  Proof. intros i p k c ts H. unfold node_at. now rewrite H. Qed.

  Lemma inner_end : forall (n : node V) k m c g progs tr c',
    n = Node V (kind_op k m) (build c (record_of V)) (build_init c (record_of V) o_init) (fun d => o_log (bottom c (record_of V) d)) ->
    gexec (istep (nd_op n) (nd_D n) (fun _ => [])) (g_init (nd_op n) (nd_D n) (nd_d0 n), threads (nd_op n) progs) tr c' -> gfinished c' -> fst c' = g ->
    exists h, shuffle (map (map fst) progs) h /\ nd_log n (g_down g) = heard (chain_spec c (outs (kind_out k m) h)).
  Proof.
    intros n k m c g progs tr c' ->. cbn [nd_op nd_D nd_d0 nd_log] in *. intros X FI <-.
    destruct (kind_ends V k m _ _ progs tr c' (build_lawful _ _ c _ (leaf_lawful _ _)) X FI) as (h & S & E). exists h. split; auto.
    rewrite E, (build_refines _ _ c (record_of V) (leaf_lawful _ _)). apply record_heard.
  Qed.

  Lemma progs_fst : forall s p, map (map fst) (progs N stale ports srcs s p) = map (fun i => stream N srcs s (i :: p)) (seq 0 (ports p)).
  Proof. intros s p. unfold progs. rewrite map_map. apply map_ext. intro i. apply flagged_fst. Qed.

  Lemma results_map : forall (g : nat -> list (ev V)) ts b, (forall j t, nth_error ts j = Some t -> result t (g (b + j))) -> results ts (map g (seq b (length ts))).
  Proof.
    intros g. induction ts as [|t ts IH]; intros b H; cbn; constructor.
    - specialize (H 0 t eq_refl). now rewrite Nat.add_0_r in H.
    - apply IH. intros j u E. specialize (H (S j) u E). now rewrite Nat.add_succ_r in H.
  Qed.

  Section End.
    Variables (tr : list (path * lab V)) (c : @gconfig (tstate N) (titem N)).
    Hypothesis X : run tr c.
    Hypothesis FI : gfinished c.

    Lemma whole_inner : forall t p, p <> [] -> sub T p = Some t -> result t (stream N srcs (fst c) p).
    Proof.
      induction t as [l|k ch ts IH] using tree_ind2; intros p NE H; [rewrite (stream_src _ _ _ H); constructor|].
      destruct p as [|i p]; [congruence|]. rewrite (stream_op _ _ _ _ _ H).
      destruct (tree_end N stale ports srcs w_grows w_quiet w_rooted (places_nodup T []) w_outer w_inports tr c X FI (i :: p)) as (c' & X' & F' & E').
      destruct (inner_end (N (i :: p)) k (length ts) ch (fst c (i :: p)) _ _ c' (node_inner _ _ _ _ _ H) X' F' E') as (h & S & E).
      unfold said. rewrite E. apply ROp with (ins := map (map fst) (progs N stale ports srcs (fst c) (i :: p))); auto.
      rewrite progs_fst. unfold ports. rewrite H. apply results_map. intros j t Hj. cbn [Nat.add]. rewrite Forall_forall in IH. apply IH; [eapply nth_error_In; eauto|discriminate|]. cbn [sub] in *. now rewrite H.
    Qed.
  End End.
End Whole.

Theorem whole_result : forall V (k : kind V) c ts F f0 stale tr cfg, proper (Op k c ts) -> lawful F ->
  gexec (tstep (node_at (Op k c ts) F f0) stale) (start (Op k c ts) F f0 stale) tr cfg -> gfinished cfg ->
  exists l, result (Op k c ts) l /\ subscriber k c ts F f0 (fst cfg) = mrun F f0 l.
Proof.
  intros V k c ts F f0 stale tr cfg PR L X FI. set (T := Op k c ts) in *.
  assert (TO : exists k c ts, T = Op k c ts) by (unfold T; eauto).
  destruct (tree_end (node_at T F f0) stale (ports T) (places [] T) (w_grows T F f0) (w_quiet T F f0 PR) (w_rooted T TO PR) (places_nodup T []) (w_outer T) (w_inports T) tr cfg X FI []) as (c' & X' & F' & E').
  destruct (kind_ends V k (length ts) (build c F) (build_init c F f0) _ _ c' (build_lawful _ _ c _ L) X' F') as (h & S & E).
  exists (heard (chain_spec c (outs (kind_out k (length ts)) h))). split.
  - eapply ROp; [|exact S]. rewrite progs_fst. apply results_map. intros j t Hj. apply (whole_inner T F f0 stale TO PR tr cfg X FI); [discriminate|exact Hj].
  - transitivity (bottom c F (mrun (build c F) (build_init c F f0) (outs (kind_out k (length ts)) h))); [|now rewrite (build_refines _ _ c F L), run_heard].
    unfold subscriber. rewrite <- E'. exact (f_equal (bottom c F) E).
Qed.

(** ** Calls on one observer do not overlap *)
Section Serial.
  Context {A B : Type} (o : mop A B) (D : machine B) (d0 : mst D).
  Notation ist := (istep o D (fun _ => @nil (nat * ev A))).
  Lemma visible_prefix : forall progs tr c, gexec ist (g_init o D d0, threads o progs) tr c ->
    forall i, prefix (filter (fun l => match l with Inv j _ | Ret j _ => j =? i end) tr) (one_by_one i (map fst (nth i progs []))).
  Proof.
    intros progs tr c X i.
    destruct (lin_generic o D progs (fun _ _ _ => True)) with (d0 := d0) (tr := tr) (c := c) as (cu & tr' & E & _ & H & _); auto.
    - intros g cu t j e st k l g' k' n _ C _. exists cu, t, l. split; [apply lmove_refl|]. auto.
    - intros g cu t j e st k l g' n _ C _. destruct l.
      + exists cu, t. split; [apply lmove_refl|]. auto.
      + exists (upd_run o cu j (Run o e st k true)), (t ++ [Lin j e]). split; [now apply lmove_lin|]. rewrite upd_same. auto.
    - destruct (H i) as (r & Hr). exists (erase r). rewrite <- E, <- erase_per, <- erase_app, <- Hr. generalize (map fst (nth i progs [])). clear.
      induction l as [|e l IH]; auto. change (expand i (e :: l)) with ([Vis (Inv i e); Lin i e; Vis (Ret i e)] ++ expand i l). rewrite erase_app, <- IH. reflexivity.
  Qed.
  Lemma down_reaches : forall thr tr c, gexec ist (g_init o D d0, thr) tr c -> reaches D d0 (g_down (fst c)).
  Proof.
    intros thr tr c X. apply (gexec_tinv ist (fun s _ _ => reaches D d0 (g_down s))) with (c0 := (g_init o D d0, thr)) (tr := tr) (c := c) in X; auto; [|apply reach_refl].
    intros s t1 x R t2 tr0 s' its ls I H. destruct (calling o x) eqn:C; [|now rewrite (step_down o D _ _ _ _ _ H C)].
    destruct x as [i e st|i e st [| | | |l t| | |]]; try discriminate. cbn in H. injection H as <- <- <-. cbn. eapply reach_trans; [exact I|]. now exists l.
  Qed.
End Serial.

Lemma calls_proj : forall V p i (tr : list (path * lab V)), calls_on p i tr = filter (fun l => match l with Inv j _ | Ret j _ => j =? i end) (proj p tr).
Proof.
  intros V p i tr. unfold calls_on, proj. induction tr as [|(q, x) tr IH]; auto. cbn [flat_map fst snd]. rewrite filter_app, <- IH. f_equal.
  unfold path_dec. destruct (list_eq_dec Nat.eq_dec q p); auto. destruct x as [j x|j x]; cbn; now destruct (j =? i).
Qed.

Lemma heard_gram : forall V (l : list (ev V)), grammatical (heard l).
Proof. intros. exists (vals l), (term_list l). split; auto. apply term_list_tpart. Qed.

Lemma inner_said : forall V (n : node V) k m c thr tr c', chain_spec c [] = [] ->
  n = Node V (kind_op k m) (build c (record_of V)) (build_init c (record_of V) o_init) (fun d => o_log (bottom c (record_of V) d)) ->
  gexec (istep (nd_op n) (nd_D n) (fun _ => [])) (g_init (nd_op n) (nd_D n) (nd_d0 n), thr) tr c' ->
  grammatical (nd_log n (g_down (fst c'))).
Proof.
  intros V n k m c thr tr c' Q -> X. cbn [nd_op nd_D nd_d0 nd_log] in *. apply down_reaches in X. destruct X as (l & E). rewrite E.
  destruct (build_reaches _ _ c (record_of V) (build_init c (record_of V) o_init) l) as (l' & E'). rewrite E'.
  pose proof (build_refines _ _ c (record_of V) (leaf_lawful _ _) o_init []) as B. rewrite Q in B. unfold mrun in B at 1 2. cbn [fold_left] in B. rewrite B, record_heard. apply heard_gram.
Qed.

Theorem whole_serial : forall V (T : tree V) F f0 stale tr cfg, (exists k c ts, T = Op k c ts) -> proper T ->
  gexec (tstep (node_at T F f0) stale) (start T F f0 stale) tr cfg ->
  forall p i t, sub T (i :: p) = Some t ->
  exists es, prefix (calls_on p i tr) (one_by_one i es) /\ match t with Src l => es = l | Op _ _ _ => grammatical es end.
Proof.
  intros V T F f0 stale tr cfg TO PR X p i t ST.
  pose proof (inv_exec (node_at T F f0) stale (ports T) (places [] T) (w_grows T F f0) (w_quiet T F f0 PR) (w_rooted T TO PR) (places_nodup T []) (w_outer T) (w_inports T) tr cfg X) as I.
  exists (stream (node_at T F f0) (places [] T) (fst cfg) (i :: p)). split.
  - rewrite calls_proj. pose proof (visible_prefix _ _ _ _ _ _ (i_view _ _ _ _ _ _ _ I p) i) as H.
    assert (L : i < ports T p). { unfold ports. cbn [sub] in ST. destruct (sub T p) as [[ev|k c ts]|]; try discriminate. apply nth_error_Some. congruence. }
    unfold progs in H.
    rewrite (nth_indep _ [] (flagged stale (0 :: p) 0 (stream (node_at T F f0) (places [] T) (fst cfg) (0 :: p)))) in H by now rewrite map_length, seq_length.
    rewrite (map_nth (fun i => flagged stale (i :: p) 0 (stream (node_at T F f0) (places [] T) (fst cfg) (i :: p))) _ 0) in H. rewrite seq_nth in H by auto. cbn [Nat.add] in H. now rewrite flagged_fst in H.
  - destruct t as [l|k c ts]; [now apply stream_src|]. rewrite (stream_op _ _ _ _ _ _ _ _ ST).
    exact (inner_said V _ k (length ts) c _ _ _ (proj1 (proj2 (proper_sub _ _ _ PR ST))) (node_inner T F f0 i p k c ts ST) (i_view _ _ _ _ _ _ _ I (i :: p))).
Qed.

(** ** Merges of merges *)
Section Merges.
  Context {V : Type}.
  Definition tidy (l : list (ev V)) : Prop := l = [] \/ exists vs, l = map Next vs ++ [Done].

  Lemma vals_tidy : forall (vs : list V), vals (map Next vs ++ [Done]) = vs.
  Proof. induction vs as [|v vs IH]; cbn; congruence. Qed.
  Lemma completed_snoc : forall j (h : hist V) i e, completed j (h ++ [(i, e)]) = completed j h || ((i =? j) && match e with Done => true | _ => false end).
  Proof. intros. unfold completed. rewrite existsb_app. cbn. now rewrite orb_false_r. Qed.

  Lemma forallb_no : forall X (f : X -> bool) l, forallb f l = false -> exists x, In x l /\ f x = false.
  Proof. intros X f. induction l as [|x l IH]; cbn; [discriminate|]. destruct (f x) eqn:E; cbn; [intro H; destruct (IH H) as (y & I & Q); eauto|eauto]. Qed.

  Lemma shuffle_cons : forall (ins : list (list (ev V))) i e h, shuffle ins ((i, e) :: h) ->
    exists a r b, ins = a ++ (e :: r) :: b /\ length a = i /\ shuffle (a ++ r :: b) h.
  Proof.
    intros ins i e h H. pose proof (H i) as Hi. cbn in Hi. rewrite Nat.eqb_refl in Hi. cbn in Hi.
    assert (L : i < length ins). { destruct (Nat.lt_ge_cases i (length ins)); auto. now rewrite nth_overflow in Hi. }
    destruct (nth_split ins [] L) as (a & b & E & LA). rewrite <- Hi in E. eexists a, _, b. split; [exact E|]. split; auto.
    intro j. specialize (H j). rewrite E in H. cbn in H. rewrite <- LA in *. destruct (Nat.eqb_spec (length a) j) as [<-|NE].
    - now rewrite nth_middle.
    - rewrite H. destruct (Nat.lt_ge_cases j (length a)); [now rewrite !app_nth1|]. rewrite !app_nth2 by lia. destruct (j - length a) eqn:Q; [lia|reflexivity].
  Qed.

  Lemma shuffle_empty : forall (ins : list (list (ev V))) h, (forall j, nth j ins [] = []) -> shuffle ins h -> h = [].
  Proof. intros ins [|(i, e) h] E H; auto. specialize (H i). rewrite E in H. cbn in H. rewrite Nat.eqb_refl in H. discriminate. Qed.

  Lemma merge_weave : forall (h past : hist V) ended ins, Forall tidy ins -> shuffle ins h ->
    (forall j, j < length ins -> completed j past = true <-> nth j ins [] = []) ->
    (forall j, existsb (Nat.eqb j) ended = true -> nth j ins [] = []) ->
    (exists j, nth j ins [] <> []) ->
    exists w, outs_from (merge_with_out (length ins)) past (live_from ended h) = map Next w ++ [Done] /\ weaves (map vals ins) w.
  Proof.
    induction h as [|(i, e) h IH]; intros past ended ins TI SH CO EN NE.
    - destruct NE as (j & NE). destruct NE. now rewrite <- (SH j).
    - destruct (shuffle_cons _ _ _ _ SH) as (a & r & b & -> & LA & SH'). cbn [live_from].
      assert (NI : existsb (Nat.eqb i) ended = false).
      { destruct (existsb (Nat.eqb i) ended) eqn:Q; auto. apply EN in Q. rewrite <- LA, nth_middle in Q. discriminate. }
      rewrite NI. cbn [outs_from].
      assert (TI' := TI). apply Forall_app in TI'. destruct TI' as (Ta & Tb). assert (Tr := Forall_inv Tb). assert (Tb' := Forall_inv_tail Tb). destruct Tr as [Tr|(vs & Tr)]; [discriminate|].
      assert (NTH : forall j x, j <> i -> nth j (a ++ x :: b) [] = nth j (a ++ r :: b) []).
      { intros j x NJ. destruct (Nat.lt_ge_cases j (length a)); [now rewrite !app_nth1|]. rewrite !app_nth2 by lia. destruct (j - length a) eqn:Q; [lia|reflexivity]. }
      assert (LEN : length (a ++ r :: b) = length (a ++ (e :: r) :: b)) by (rewrite !app_length; reflexivity).
      destruct vs as [|v vs]; cbn in Tr; injection Tr as -> ->.
      + (* completion *)
        cbn [is_term].
        assert (CO' : forall j, j < length (a ++ [] :: b) -> completed j (past ++ [(i, Done)]) = true <-> nth j (a ++ [] :: b) [] = []).
        { intros j Lj. rewrite completed_snoc, orb_true_iff. rewrite LEN in Lj. destruct (Nat.eqb_spec i j) as [->|NJ].
          - rewrite <- LA, nth_middle. cbn. tauto.
          - rewrite <- (NTH j (Done :: [])) by auto. rewrite <- CO by auto. cbn. intuition discriminate. }
        destruct (all_done (length (a ++ [Done] :: b)) (past ++ [(i, Done)])) eqn:AD.
        * assert (Z : forall j, nth j (a ++ [] :: b) [] = []).
          { intro j. destruct (Nat.lt_ge_cases j (length (a ++ [] :: b))) as [Lj|Lj]; [|now rewrite nth_overflow]. apply CO'; auto. unfold all_done in AD. rewrite forallb_forall in AD. apply AD. apply in_seq. rewrite <- LEN. lia. }
          rewrite (shuffle_empty _ _ Z SH'). exists []. cbn [merge_with_out live_from outs_from]. rewrite AD. split; auto. constructor.
          apply Forall_map. rewrite Forall_forall. intros l IN. apply in_app_or in IN.
          assert (G : l = [] \/ l = [Done]). { destruct IN as [IN|[<-|IN]]; auto; left; apply (In_nth _ _ []) in IN; destruct IN as (j & Lj & <-).
            - specialize (Z j). now rewrite app_nth1 in Z.
            - specialize (Z (length a + S j)). rewrite app_nth2 in Z by lia. replace (length a + S j - length a) with (S j) in Z by lia. exact Z. }
          destruct G as [-> | ->]; reflexivity.
        * destruct (IH (past ++ [(i, Done)]) (i :: ended) (a ++ [] :: b)) as (w & E & W); auto.
          -- apply Forall_app. split; auto. constructor; auto. now left.
          -- intros j. cbn. destruct (Nat.eqb_spec j i) as [->|NJ]; [rewrite <- LA, nth_middle; auto|]. cbn. intro Q. rewrite <- (NTH j [Done]) by auto. now apply EN.
          -- unfold all_done in AD. destruct (forallb_no _ _ _ AD) as (j & IN & Q). apply in_seq in IN. exists j. intro Z.
             apply CO' in Z; [congruence|]. rewrite LEN. lia.
          -- exists w. cbn [merge_with_out]. rewrite AD, <- LEN, E. split; auto. rewrite map_app in *. cbn [map vals] in *. exact W.
      + (* a value *)
        cbn [is_term merge_with_out].
        destruct (IH (past ++ [(i, Next v)]) ended (a ++ (map Next vs ++ [Done]) :: b)) as (w & E & W); auto.
        * apply Forall_app. split; auto. constructor; auto. right. eauto.
        * intros j Lj. rewrite LEN in Lj. rewrite completed_snoc, andb_false_r, orb_false_r, CO by auto. destruct (Nat.eq_dec j i) as [->|NJ]; [|now rewrite NTH].
          rewrite <- LA, !nth_middle. split; [discriminate|]. now destruct vs.
        * intros j Q. destruct (Nat.eq_dec j i) as [->|NJ]; [congruence|]. rewrite <- (NTH j (Next v :: map Next vs ++ [Done])) by auto. now apply EN.
        * exists i. rewrite <- LA, nth_middle. now destruct vs.
        * exists (v :: w). rewrite <- LEN, E. split; auto. rewrite map_app in *. cbn [map vals]. now constructor.
  Qed.

  Lemma weave_nil : forall X (ls : list (list X)), weaves ls [] -> Forall (fun l => l = []) ls.
  Proof. intros X ls H. now inversion H. Qed.
  Lemma weave_concat : forall X (ws : list (list X)) w, weaves ws w -> forall lss, Forall2 weaves lss ws -> weaves (concat lss) w.
  Proof.
    intros X ws w H. induction H as [ws Z|a x l b w H IH]; intros lss F.
    - constructor. induction F as [|ls w' lss ws W F IHF]; [constructor|]. inversion Z; subst. cbn. apply Forall_app. split; auto using weave_nil.
    - apply Forall2_app_inv_r in F. destruct F as (A & B' & FA & FB & ->). inversion FB as [|L ? B ? WL FB']; subst.
      inversion WL as [|a' ? l' b' ? W']; subst. rewrite concat_app. cbn [concat]. rewrite <- app_assoc, app_assoc. cbn [app].
      constructor. specialize (IH (A ++ (a' ++ l' :: b') :: B)). rewrite concat_app in IH. cbn [concat] in IH. rewrite <- app_assoc, app_assoc in IH. apply IH.
      apply Forall2_app; auto.
  Qed.

  Lemma only_merge_proper : forall T : tree V, only_merge T -> proper T.
  Proof.
    induction T as [p|k c ts IH] using tree_ind2; intro OM; [exact I|]. cbn [only_merge proper] in *. destruct OM as (-> & -> & _ & OM). split; auto. split; auto.
    induction IH as [|t ts Ht _ IHts]; auto. split; [apply Ht, OM|apply IHts, OM].
  Qed.

  Theorem merges_weave : forall (T : tree V) l, only_merge T -> (forall p, In p (sources T) -> exists vs, p = map Next vs ++ [Done]) ->
    result T l -> exists w, l = map Next w ++ [Done] /\ weaves (map vals (sources T)) w.
  Proof.
    induction T as [p|k c ts IH] using tree_ind2; intros l OM SR R.
    - inversion R; subst. destruct (SR l) as (vs & ->); [now left|]. exists vs. split; auto. cbn [sources map]. rewrite vals_tidy. clear.
      induction vs as [|v vs IH]; [constructor; auto|]. exact (WCons [] v vs [] vs IH).
    - cbn [only_merge] in OM. destruct OM as (-> & -> & NE & OM). inversion R as [|? ? ? ins h RS SH]; subst. cbn [chain_spec kind_out].
      assert (G : Forall2 (fun t i => exists w, i = map Next w ++ [Done] /\ weaves (map vals (sources t)) w) ts ins).
      { clear - IH OM SR RS. revert ins RS OM SR. cbn [sources]. induction IH as [|t ts Ht _ IHts]; intros ins RS OM SR; inversion RS; subst; constructor.
        - apply Ht; auto; [apply OM|]. intros p I. apply SR. apply in_or_app. auto.
        - apply IHts; auto; [apply OM|]. intros p I. apply SR. apply in_or_app. auto. }
      assert (LEN : length ins = length ts) by (clear - G; induction G; cbn; congruence).
      assert (TI : forall i, In i ins -> exists w, i = map Next w ++ [Done]). { clear - G. induction G as [|? ? ? ? (w & -> & _) _ IH]; intros z []; subst; eauto. }
      destruct (merge_weave h [] [] ins) as (w & E & W); auto.
      + apply Forall_forall. intros x I. right. auto.
      + intros j L. cbn. split; [discriminate|]. intro Z. destruct (TI (nth j ins [])) as (w & Q); [now apply nth_In|]. rewrite Z in Q. now destruct w.
      + discriminate.
      + exists 0. destruct ins as [|i ins]; [destruct ts; [congruence|discriminate]|]. destruct (TI i) as (w & ->); [now left|]. now destruct w.
      + exists w. split.
        * unfold outs, live. rewrite <- LEN, E. unfold heard. rewrite vals_tidy. f_equal. clear. unfold term_list. induction w; cbn; auto.
        * assert (S : map vals (sources (Op KMerge (ChNil V) ts)) = concat (map (fun t => map vals (sources t)) ts)).
          { cbn [sources]. clear. induction ts as [|t ts IH]; auto. cbn. now rewrite map_app, IH. }
          rewrite S. apply (weave_concat _ (map vals ins)); auto. clear - G. induction G as [|? ? ? ? (w & -> & W) _ IH]; cbn; constructor; auto. now rewrite vals_tidy.
  Qed.
End Merges.
