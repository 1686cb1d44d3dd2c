(** Tools for statements on all linearizations of a finite execution, and progress of
    the operators with several sources. *)
From Verif Require Import Base Machine MachineProofs Concur MultiSpec MultiModel MultiLin.

(** ** All orders of the events of the sources *)
Definition evs_of {A} (i : nat) (h : hist A) : list (ev A) := map snd (filter (fun x => fst x =? i) h).

Fixpoint inter {A} (fuel : nat) (ps : list (list (ev A))) : list (hist A) :=
  [] :: match fuel with
        | 0 => []
        | S f => flat_map (fun i => match nth i ps [] with
                                    | [] => []
                                    | e :: r => map (cons (i, e)) (inter f (upd i (fun _ => r) ps))
                                    end) (seq 0 (length ps))
        end.

Lemma nth_upd : forall X (l : list X) i j f d, nth j (upd i f l) d = if (j =? i) && (j <? length l) then f (nth j l d) else nth j l d.
Proof.
  induction l as [|x l IH]; intros [|i] [|j] f d; cbn; auto.
  - now rewrite andb_false_r.
  - rewrite IH. reflexivity.
Qed.

Lemma inter_in : forall A (h : hist A) fuel ps, length h <= fuel ->
  (forall i, prefix (evs_of i h) (nth i ps [])) -> In h (inter fuel ps).
Proof.
  induction h as [|[i e] h IH]; intros fuel ps LE P; destruct fuel as [|f]; cbn [length] in LE; try lia; try (left; reflexivity).
  right. apply in_flat_map. exists i. pose proof (P i) as [r R]. unfold evs_of in R. cbn in R. rewrite Nat.eqb_refl in R. cbn in R.
  assert (Li : i < length ps).
  { destruct (Nat.lt_ge_cases i (length ps)) as [|GE]; auto. rewrite nth_overflow in R by auto. discriminate. }
  split; [apply in_seq; lia|]. rewrite R. apply in_map. apply IH; [lia|]. intro j. rewrite nth_upd.
  destruct (Nat.eqb_spec j i) as [->|NE]; cbn [andb].
  - rewrite (proj2 (Nat.ltb_lt _ _) Li). exists r. unfold evs_of. reflexivity.
  - destruct (P j) as [r2 R2]. exists r2. rewrite R2. unfold evs_of. cbn. destruct (Nat.eqb_spec i j); [congruence | reflexivity].
Qed.

Lemma evs_lins : forall A i (tr : list (alab A)), evs_of i (lins tr) = flat_map (fun x => match x with Lin _ e => [e] | _ => [] end) (per i tr).
Proof.
  induction tr as [|[[j e|j e]|j e] tr IH]; cbn; auto.
  - destruct (j =? i); cbn; auto.
  - destruct (j =? i); cbn; auto.
  - unfold evs_of, per, lins in *. cbn. destruct (j =? i); cbn; [now rewrite IH | exact IH].
Qed.
Lemma evs_expand : forall A i (p : list (ev A)), flat_map (fun x => match x with Lin _ e => [e] | _ => [] end) (expand i p) = p.
Proof. unfold expand. induction p as [|e p IH]; cbn; auto. now rewrite IH. Qed.

Lemma linearized_evs : forall A progs tr (h : hist A) i, linearized progs tr h -> prefix (evs_of i h) (nth i progs []).
Proof.
  intros A progs tr h i (tr' & _ & <- & P). destruct (P i) as [r R]. rewrite evs_lins.
  exists (flat_map (fun x => match x with Lin _ e => [e] | _ => [] end) r).
  rewrite <- (evs_expand A i (nth i progs [])), R, flat_map_app. reflexivity.
Qed.

Lemma evs_length : forall A (h : hist A) (ps : list (list (ev A))), (forall i, prefix (evs_of i h) (nth i ps [])) ->
  length h <= length (concat ps).
Proof.
  induction h as [|[i e] h IH]; intros ps P; cbn; [lia|].
  pose proof (P i) as [r R]. unfold evs_of in R. cbn in R. rewrite Nat.eqb_refl in R. cbn in R.
  assert (Li : i < length ps).
  { destruct (Nat.lt_ge_cases i (length ps)) as [|GE]; auto. rewrite nth_overflow in R by auto. discriminate. }
  assert (X : length (concat ps) = S (length (concat (upd i (fun _ => tl (nth i ps [])) ps)))).
  { set (q := map snd (filter (fun x : nat * ev A => fst x =? i) h) ++ r) in R. clearbody q. clear -R Li.
    revert i R Li. induction ps as [|p ps IH]; intros i R Li; cbn in *; [lia|].
    destruct i as [|i]; cbn.
    - rewrite R. cbn. rewrite !app_length. reflexivity.
    - rewrite !app_length, (IH i R) by lia. lia. }
  rewrite X. apply le_n_S, IH. intro j. rewrite nth_upd. destruct (Nat.eqb_spec j i) as [->|NE]; cbn [andb].
  - rewrite (proj2 (Nat.ltb_lt _ _) Li), R. cbn. exists r. reflexivity.
  - destruct (P j) as [r2 R2]. exists r2. rewrite R2. unfold evs_of. cbn. destruct (Nat.eqb_spec i j); [congruence | reflexivity].
Qed.

Theorem all_linearizations : forall A progs tr (h : hist A), linearized progs tr h ->
  In h (inter (length (concat progs)) progs).
Proof.
  intros A progs tr h L. apply inter_in; [eapply evs_length|]; intro i; eapply linearized_evs; eauto.
Qed.

(** ** Progress *)
Section Progress.
  Context {A B : Type} (o : mop A B) (D : machine B).
  Notation ist := (istep o D (fun _ => @nil (nat * ev A))).

  Definition holds_lock (x : item o) : bool :=
    match x with IRun _ _ _ (PBody _) | IRun _ _ _ (PCall _ _) | IRun _ _ _ (PUnlock _) => true | _ => false end.
  Definition lock_held (g : gs o D) (ts : list (list (item o))) : Prop :=
    g_lock g = true -> exists x rest, In (x :: rest) ts /\ holds_lock x = true.

  Lemma lock_step : forall g ts1 it rest ts2 g' its ls, lock_held g (ts1 ++ (it :: rest) :: ts2) ->
    ist g it = Some (g', its, ls) -> lock_held g' (ts1 ++ (its ++ rest) :: ts2).
  Proof.
    intros g ts1 it rest ts2 g' its ls H S LK.
    assert (SAME : holds_lock it = false -> g_lock g = true -> exists x r, In (x :: r) (ts1 ++ (its ++ rest) :: ts2) /\ holds_lock x = true).
    { intros NH LG. destruct (H LG) as (x & r & I & HX). exists x, r. split; auto. apply in_app_or in I.
      apply in_or_app. destruct I as [I|[I|I]]; auto; [|right; now right]. injection I as <- _. congruence. }
    assert (NEW : forall x its', its = x :: its' -> holds_lock x = true -> exists x r, In (x :: r) (ts1 ++ (its ++ rest) :: ts2) /\ holds_lock x = true).
    { intros x its' -> HX. exists x, (its' ++ rest). split; auto. apply in_or_app. right. now left. }
    destruct it as [i e st|i e st k].
    { injection S as <- <- <-. apply SAME; auto. }
    destruct k as [|m|p|p|l t|t|x|]; cbn [istep pstep] in S.
    - destruct (negb (mo_ready o (g_op g) i)); [discriminate|]. destruct (mo_gate_locks o && g_lock g); [discriminate|].
      destruct (gate o D g i st); injection S as <- <- _; auto.
    - destruct (mo_pre o m (g_op g) i e) as [s [| |p|x]]; injection S as <- <- _; auto.
    - destruct (g_lock g); [discriminate|]. injection S as <- <- _. eapply NEW; reflexivity.
    - destruct (mo_body o (g_op g) p) as [[s l] t]. injection S as <- <- _. eapply NEW; reflexivity.
    - assert (X : its = [IRun i e st (PUnlock t)]) by (destruct l; injection S as _ <- _; reflexivity).
      eapply NEW; [exact X | reflexivity].
    - injection S as <- _ _. discriminate.
    - destruct (mo_gate_locks o && g_lock g); [discriminate|].
      destruct (gate o D g i st); injection S as <- <- _; auto.
    - injection S as <- <- _. auto.
  Qed.

  (** Waiting for a source that has not been subscribed yet. *)
  Definition not_subscribed (g : gs o D) (t : list (item o)) : Prop :=
    match t with [] => True | IRun i _ _ P0 :: _ => mo_ready o (g_op g) i = false | _ => False end.

  Lemma head_steps : forall g x, (g_lock g = true -> holds_lock x = true) ->
    (exists r, ist g x = Some r) \/ (forall rest, not_subscribed g (x :: rest)).
  Proof.
    intros g [i e st|i e st k] H; [left; cbn; eauto|].
    destruct k as [|m|p|p|l t|t|x|]; cbn [istep pstep holds_lock] in *.
    - destruct (mo_ready o (g_op g) i) eqn:R; cbn [negb].
      + left. destruct (g_lock g); [specialize (H eq_refl); discriminate|]. rewrite andb_false_r. destruct (gate o D g i st); eauto.
      + right. intro. exact R.
    - left. destruct (mo_pre o m (g_op g) i e) as [s [| |p|x]]; eauto.
    - left. destruct (g_lock g); [specialize (H eq_refl); discriminate|]. eauto.
    - left. destruct (mo_body o (g_op g) p) as [[s l] t]. eauto.
    - left. destruct l; eauto.
    - left. eauto.
    - left. destruct (g_lock g); [specialize (H eq_refl); discriminate|]. rewrite andb_false_r. destruct (gate o D g i st); eauto.
    - left. eauto.
  Qed.

  Theorem progress : forall progs d tr c, gexec ist (g_init o D d, threads o progs) tr c ->
    (exists ls c', gstep ist c ls c') \/ (forall t, In t (snd c) -> not_subscribed (fst c) t).
  Proof.
    intros progs d tr [g ts] X.
    assert (LH : lock_held g ts).
    { apply (gexec_tinv ist (fun s l _ => lock_held s l)) with (c := (g, ts)) in X; auto.
      - intros. eapply lock_step; eauto.
      - intro. discriminate. }
    clear X. cbn [fst snd].
    assert (ST : forall x rest r, In (x :: rest) ts -> ist g x = Some r -> exists ls c', gstep ist (g, ts) ls c').
    { intros x rest [[g' its] ls] I S. apply in_split in I as (a & b & ->). do 2 eexists. econstructor. exact S. }
    destruct (g_lock g) eqn:LK.
    - destruct (LH LK) as (x & rest & I & HX). destruct (head_steps g x ltac:(auto)) as [[r S]|NS].
      + left. eauto.
      + exfalso. specialize (NS []). destruct x as [|? ? ? k]; [discriminate|]. destruct k; try discriminate; destruct NS.
    - assert (Y : forall l, (forall t, In t l -> In t ts) -> (exists ls c', gstep ist (g, ts) ls c') \/ (forall t, In t l -> not_subscribed g t)).
      { induction l as [|t l IH]; intro SUB; [right; intros ? []|].
        destruct IH as [IH|IH]; [intros; apply SUB; now right | now left|].
        destruct t as [|x rest].
        - right. intros t [<-|I]; auto. exact I.
        - destruct (head_steps g x ltac:(congruence)) as [[r S]|NS].
          + left. eapply ST; eauto. apply SUB. now left.
          + right. intros t [<-|I]; auto. }
      apply Y. auto.
  Qed.
End Progress.

(** A configuration in which no thread can move. *)
Definition stuckb {A B} (o : mop A B) (D : machine B) react (c : gs o D * list (list (item o))) : bool :=
  forallb (fun t => match t with
                    | [] => true
                    | x :: _ => match istep o D react (fst c) x with None => true | _ => false end
                    end) (snd c).
Lemma stuckb_stuck : forall A B (o : mop A B) D react c, stuckb o D react c = true ->
  forall ls c', ~ gstep (istep o D react) c ls c'.
Proof.
  intros A B o D react c S ls c' G. destruct G as [s ts1 it rest ts2 s' its ls I].
  unfold stuckb in S. rewrite forallb_forall in S. specialize (S (it :: rest)). cbn [fst snd] in S.
  rewrite I in S. discriminate S. apply in_or_app. right. now left.
Qed.
