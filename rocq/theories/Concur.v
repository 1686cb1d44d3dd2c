(** Generic interleaving semantics used by the concurrent models: a thread is the list
    of its next program points; any thread may make the next step; a step of a program
    point changes the shared state, is replaced by follow-up program points and may
    emit visible labels.  A step that is not possible (None) blocks the thread. *)
From Coq Require Import Permutation.
From Verif Require Import Base.

Section Concur.
  Context {S item label : Type}.
  Variable istep : S -> item -> option (S * list item * list label).

  Definition gconfig := (S * list (list item))%type.

  Inductive gstep : gconfig -> list label -> gconfig -> Prop :=
  | GStep : forall s ts1 it rest ts2 s' its ls,
      istep s it = Some (s', its, ls) ->
      gstep (s, ts1 ++ (it :: rest) :: ts2) ls (s', ts1 ++ (its ++ rest) :: ts2).

  Inductive gexec : gconfig -> list label -> gconfig -> Prop :=
  | GNil : forall c, gexec c [] c
  | GSnoc : forall c tr c1 ls c2, gexec c tr c1 -> gstep c1 ls c2 -> gexec c (tr ++ ls) c2.

  Definition gfinished (c : gconfig) : Prop := forall t, In t (snd c) -> t = [].

  Lemma gfinished_concat : forall c, gfinished c -> concat (snd c) = [].
  Proof.
    intros [s ts] F. cbn. unfold gfinished in F. cbn in F. induction ts as [|t ts IH]; auto.
    cbn. rewrite (F t), IH; auto. intros x Hx. apply F. now right. now left.
  Qed.

  Lemma gexec_app : forall c tr1 c1 tr2 c2, gexec c tr1 c1 -> gexec c1 tr2 c2 -> gexec c (tr1 ++ tr2) c2.
  Proof.
    intros c tr1 c1 tr2 c2 E1 E2. revert E1. induction E2; intro E1.
    - now rewrite app_nil_r.
    - rewrite app_assoc. econstructor; eauto.
  Qed.

  (** Invariants that do not look at which thread an item belongs to. *)
  Lemma gexec_inv : forall (Inv : S -> list item -> list label -> Prop),
    (forall s l l' tr, Permutation l l' -> Inv s l tr -> Inv s l' tr) ->
    (forall s it l tr s' its ls, Inv s (it :: l) tr -> istep s it = Some (s', its, ls) ->
        Inv s' (its ++ l) (tr ++ ls)) ->
    forall c0 tr c, gexec c0 tr c -> Inv (fst c0) (concat (snd c0)) [] ->
    Inv (fst c) (concat (snd c)) tr.
  Proof.
    intros Inv PM ST c0 tr c E. induction E as [c|c tr c1 ls c2 E IH G]; intro I0; auto.
    specialize (IH I0). inversion G as [s ts1 it rest ts2 s' its ls' I]; subst. cbn [fst snd] in *.
    rewrite concat_app in *. cbn [concat app] in *.
    eapply PM; [|eapply ST; [eapply PM; [|exact IH]|exact I]].
    - shelve.
    - symmetry. apply Permutation_middle.
    Unshelve. rewrite <- app_assoc. apply Permutation_app_swap_app.
  Qed.

  (** Invariants about each thread separately plus the shared state. *)
  Lemma gexec_tinv : forall (Inv : S -> list (list item) -> list label -> Prop),
    (forall s ts1 it rest ts2 tr s' its ls, Inv s (ts1 ++ (it :: rest) :: ts2) tr ->
        istep s it = Some (s', its, ls) -> Inv s' (ts1 ++ (its ++ rest) :: ts2) (tr ++ ls)) ->
    forall c0 tr c, gexec c0 tr c -> Inv (fst c0) (snd c0) [] -> Inv (fst c) (snd c) tr.
  Proof.
    intros Inv ST c0 tr c E. induction E as [c|c tr c1 ls c2 E IH G]; intro I0; auto.
    specialize (IH I0). inversion G; subst. cbn [fst snd] in *. eauto.
  Qed.
End Concur.

(** Counting program points. *)
Section Count.
  Context {item : Type}.
  Definition count (f : item -> bool) (l : list item) : nat := length (filter f l).
  Lemma count_nil : forall f, count f [] = 0.
  Proof. reflexivity. Qed.
  Lemma count_cons : forall f x l, count f (x :: l) = (if f x then 1 else 0) + count f l.
  Proof. intros. unfold count. cbn. now destruct (f x). Qed.
  Lemma count_app : forall f x l, count f (x ++ l) = count f x + count f l.
  Proof. intros. unfold count. now rewrite filter_app, app_length. Qed.
  Lemma count_perm : forall f l l', Permutation l l' -> count f l = count f l'.
  Proof. induction 1; rewrite ?count_cons in *; lia. Qed.
  Lemma count_zero : forall f l, count f l = 0 -> forall x, In x l -> f x = false.
  Proof.
    induction l as [|y l IH]; intros H x I; [destruct I|].
    rewrite count_cons in H. destruct I as [->|I].
    - destruct (f x); auto; lia.
    - apply IH; auto. destruct (f y); lia.
  Qed.
  Lemma count_zero_of : forall f l, (forall x, In x l -> f x = false) -> count f l = 0.
  Proof.
    induction l as [|y l IH]; intro H; auto. rewrite count_cons.
    rewrite (H y (or_introl eq_refl)), IH; auto. intros; apply H; now right.
  Qed.
  Lemma count_in : forall f l x, In x l -> f x = true -> 1 <= count f l.
  Proof.
    intros f l x I F. apply in_split in I as (a & b & ->). rewrite count_app, count_cons, F. lia.
  Qed.
End Count.
Arguments count : simpl never.

(** A schedule picks the thread to step; used to exhibit concrete executions. *)
Section Sched.
  Context {S item label : Type}.
  Variable istep : S -> item -> option (S * list item * list label).

  Fixpoint split_at (ts : list (list item)) (i : nat) : option (list (list item) * list item * list (list item)) :=
    match ts, i with
    | [], _ => None
    | t :: r, 0 => Some ([], t, r)
    | t :: r, Datatypes.S j =>
        match split_at r j with Some (a, x, b) => Some (t :: a, x, b) | None => None end
    end.
  Lemma split_at_ok : forall ts i a x b, split_at ts i = Some (a, x, b) -> ts = a ++ x :: b.
  Proof.
    induction ts as [|t r IH]; intros [|i] a x b E; cbn in E; try discriminate.
    - now inversion E.
    - destruct (split_at r i) as [[[a' x'] b']|] eqn:Q; inversion E; subst. cbn. f_equal. eauto.
  Qed.

  Definition grun1 (c : S * list (list item)) (i : nat) : option (list label * (S * list (list item))) :=
    match split_at (snd c) i with
    | Some (a, it :: rest, b) =>
        match istep (fst c) it with
        | Some (s', its, ls) => Some (ls, (s', a ++ (its ++ rest) :: b))
        | None => None
        end
    | _ => None
    end.
  Fixpoint grun (sched : list nat) (c : S * list (list item)) : option (list label * (S * list (list item))) :=
    match sched with
    | [] => Some ([], c)
    | i :: r => match grun1 c i with
                | Some (ls, c1) => match grun r c1 with Some (tr, c2) => Some (ls ++ tr, c2) | None => None end
                | None => None
                end
    end.
  Lemma grun1_sound : forall c i ls c', grun1 c i = Some (ls, c') -> gstep istep c ls c'.
  Proof.
    intros [s ts] i ls c' E. unfold grun1 in E. cbn [fst snd] in E.
    destruct (split_at ts i) as [[[a [|it rest]] b]|] eqn:Q; try discriminate.
    apply split_at_ok in Q. subst. destruct (istep s it) as [[[s' its] l]|] eqn:I; inversion E; subst.
    now constructor.
  Qed.
  Lemma grun_sound : forall sched c tr c', grun sched c = Some (tr, c') -> gexec istep c tr c'.
  Proof.
    induction sched as [|i r IH]; intros c tr c' E; cbn in E.
    - inversion E. constructor.
    - destruct (grun1 c i) as [[ls c1]|] eqn:Q; try discriminate.
      destruct (grun r c1) as [[tr' c2]|] eqn:R; inversion E; subst.
      eapply gexec_app; [|eauto]. replace ls with ([] ++ ls) by reflexivity.
      econstructor; [constructor|]. eapply grun1_sound; eauto.
  Qed.
  (** Same, leaving out steps that are not possible. *)
  Fixpoint gtol (sched : list nat) (c : S * list (list item)) : list label * (S * list (list item)) :=
    match sched with
    | [] => ([], c)
    | i :: r => match grun1 c i with
                | Some (ls, c1) => let '(tr, c2) := gtol r c1 in (ls ++ tr, c2)
                | None => gtol r c
                end
    end.
  Lemma gtol_sound : forall sched c, gexec istep c (fst (gtol sched c)) (snd (gtol sched c)).
  Proof.
    induction sched as [|i r IH]; intro c; cbn; [constructor|].
    destruct (grun1 c i) as [[ls c1]|] eqn:Q; [|apply IH]. specialize (IH c1). destruct (gtol r c1) as [tr c2]. cbn in *.
    eapply gexec_app; [|eauto]. replace ls with ([] ++ ls) by reflexivity.
    econstructor; [constructor|]. eapply grun1_sound; eauto.
  Qed.
End Sched.
