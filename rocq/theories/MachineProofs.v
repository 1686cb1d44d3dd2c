(** Generic facts on machines and a generic refinement principle for lifted operators. *)
From Verif Require Import Base Machine.

Lemma mrun_app : forall V (M : machine V) a b s, mrun M s (a ++ b) = mrun M (mrun M s a) b.
Proof. intros; apply fold_left_app. Qed.

Lemma mrun_cons : forall V (M : machine V) e l s, mrun M s (e :: l) = mrun M (mstep M s e) l.
Proof. reflexivity. Qed.

Lemma mrun_dead : forall V (M : machine V), lawful M ->
  forall l s, mdisp M s = true -> mrun M s l = s.
Proof.
  intros V M L. induction l as [|e l IH]; intros s H; [reflexivity|].
  rewrite mrun_cons, (law_dead M L s e H). auto.
Qed.

Lemma mrun_disp : forall V (M : machine V), lawful M ->
  forall l s, mdisp M s = true -> mdisp M (mrun M s l) = true.
Proof. intros V M L l s H. now rewrite (mrun_dead V M L). Qed.

Lemma mrun_done : forall V (M : machine V), lawful M ->
  forall s l, mrun M (mstep M s Done) l = mstep M s Done.
Proof. intros V M L s l. apply mrun_dead; auto. apply law_term; auto. Qed.
Lemma mrun_err : forall V (M : machine V), lawful M ->
  forall s e l, mrun M (mstep M s (Err e)) l = mstep M s (Err e).
Proof. intros V M L s e l. apply mrun_dead; auto. apply law_term; auto. Qed.
Lemma mrun_nil : forall V (M : machine V) s, mrun M s [] = s.
Proof. reflexivity. Qed.
Ltac mr := repeat (rewrite mrun_cons || rewrite mrun_nil || (rewrite mrun_done by assumption) || (rewrite mrun_err by assumption)); auto.

(** The three shapes of a terminal part. *)
Definition tpart {A} (t : list (ev A)) : Prop := t = [] \/ t = [Done] \/ exists e, t = [Err e].

Lemma term_list_tpart : forall A B (l : list (ev A)), tpart (@term_list A B l).
Proof.
  intros A B l. unfold term_list, tpart. destruct (term l) as [[v|e|]|]; eauto.
Qed.

Section Principle.
  Context {A B : Type} (o : operator A B).
  Variable Inv : op_S o -> Prop.
  Variable sp : op_S o -> stream_spec A B.

  (** [op_ok]: terminal handlers end the downstream. *)
  Definition op_ok : Prop := forall (D : machine B), lawful D -> forall s d,
    mdisp D (snd (op_done o D s d)) = true /\
    forall e, mdisp D (snd (op_err o D s d e)) = true.

  Hypothesis ok : op_ok.
  Hypothesis sp_nil : forall s, Inv s -> sp s [] [] = [].
  Hypothesis sp_done : forall D, lawful D -> forall s (d : mst D), Inv s ->
    snd (op_done o D s d) = mrun D d (sp s [] [Done]).
  Hypothesis sp_err : forall D, lawful D -> forall s (d : mst D) e, Inv s ->
    snd (op_err o D s d e) = mrun D d (sp s [] [Err e]).
  Hypothesis sp_next : forall D, lawful D -> forall s (d : mst D) v, Inv s -> mdisp D d = false ->
    match op_next o D s d v with
    | (s', d', r) =>
        (Inv s' \/ mdisp D d' = true) /\
        match r with
        | None => forall vs t, tpart t -> mrun D d (sp s (v :: vs) t) = mrun D d' (sp s' vs t)
        | Some e => forall vs t, tpart t ->
            mrun D d (sp s (v :: vs) t) = snd (lift_err o D (s', d') e)
        end
    end.

  Lemma principle_gen : forall D, lawful D -> forall evs s (d : mst D), Inv s ->
    snd (mrun (lift o D) (s, d) evs) = mrun D d (sp s (vals evs) (term_list evs)).
  Proof.
    intros D L.
    assert (DEAD: forall evs (sd : mst (lift o D)), mdisp D (snd sd) = true ->
              mrun (lift o D) sd evs = sd).
    { induction evs as [|e evs IH]; intros sd H; [reflexivity|].
      rewrite mrun_cons. assert (E: mstep (lift o D) sd e = sd).
      { cbn. destruct e; cbn; unfold lift_next, lift_err, lift_done; now rewrite H. }
      rewrite E. auto. }
    induction evs as [|e evs IH]; intros s d I.
    - cbn. now rewrite (sp_nil s I).
    - rewrite mrun_cons.
      destruct (mdisp D d) eqn:Hd.
      { assert (E: mstep (lift o D) (s, d) e = (s, d)).
        { cbn. destruct e; cbn; unfold lift_next, lift_err, lift_done; cbn; now rewrite Hd. }
        rewrite E, DEAD by exact Hd. cbn. now rewrite (mrun_dead B D L). }
      destruct e as [v|x|]; cbn [mstep lift lift_step vals].
      + unfold lift_next; cbn [fst snd]. rewrite Hd.
        pose proof (sp_next D L s d v I Hd) as N.
        destruct (op_next o D s d v) as [[s' d'] [x|]].
        * destruct N as [I' N].
          assert (T: mdisp D (snd (lift_err o D (s', d') x)) = true).
          { unfold lift_err; cbn. destruct (mdisp D d') eqn:E; cbn; auto. apply ok; auto. }
          rewrite DEAD by exact T.
          change (@term_list A B (Next v :: evs)) with (@term_list A B evs).
          symmetry. apply N, term_list_tpart.
        * destruct N as [[I'|I'] N]; [rewrite IH by auto | rewrite DEAD by exact I'; cbn [snd];
            rewrite <- (mrun_dead B D L (sp s' (vals evs) (term_list evs)) d' I')].
          all: change (@term_list A B (Next v :: evs)) with (@term_list A B evs);
            symmetry; apply N, term_list_tpart.
      + unfold lift_err; cbn [fst snd]. rewrite Hd.
        rewrite DEAD by (apply ok; auto).
        rewrite (sp_err D L s d x I). reflexivity.
      + unfold lift_done; cbn [fst snd]. rewrite Hd.
        rewrite DEAD by (apply ok; auto).
        rewrite (sp_done D L s d I). reflexivity.
  Qed.

  Lemma principle : forall spec,
    Inv (op_init o) ->
    (forall D, lawful D -> forall (d : mst D) vs t, tpart t ->
       mrun D (op_start o D d) (sp (op_init o) vs t) = mrun D d (spec vs t)) ->
    refines o spec.
  Proof.
    intros spec I0 S D L d evs. unfold lift_init.
    rewrite (principle_gen D L evs _ _ I0). apply S; auto. apply term_list_tpart.
  Qed.
End Principle.

(** Lawfulness of a lifted operator. *)
Lemma lift_lawful : forall A B (o : operator A B), op_ok o ->
  forall D, lawful D -> lawful (lift o D).
Proof.
  intros A B o ok D L. constructor; cbn.
  - intros sd e H. destruct e; cbn; unfold lift_next, lift_err, lift_done; now rewrite H.
  - intros sd e T. destruct e as [v|x|]; [discriminate| |]; cbn.
    + unfold lift_err. destruct (mdisp D (snd sd)) eqn:E; auto. apply ok; auto.
    + unfold lift_done. destruct (mdisp D (snd sd)) eqn:E; auto. apply ok; auto.
  - intros sd. apply law_kill; auto.
  - intros [s d] H; cbn in *. now rewrite (law_kill_dead D L).
Qed.
