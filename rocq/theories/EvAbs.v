(** Tasks in the hands of an event loop, in the abstract: those that wait (in no particular
    order) and those that run.  The asio strand and the Qt main thread are shown to make
    only such steps; what is common to them is proved here.  Time points of tasks are not
    kept here (0). *)
From Coq Require Import ZArith Permutation.
From Verif Require Import Base QueueSpec SchedSpec LoopSpec LoopBase LoopAbs EvSpec.
Open Scope Z_scope.

(** What a trace says about a task, as far as the schedulers here depend on it. *)
Lemma requested_app : forall tr ls i, requested (tr ++ ls) i = fold_left (requested1 i) ls (requested tr i).
Proof. intros. unfold requested. apply fold_left_app. Qed.
Lemma started_app : forall tr ls i, started (tr ++ ls) i = fold_left (started1 i) ls (started tr i).
Proof. intros. unfold started. apply fold_left_app. Qed.
Definition same (tr tr' : list ltev) (i : nat) : Prop := requested tr' i = requested tr i /\ started tr' i = started tr i /\ intervals tr' i = intervals tr i.
Definition touches (i : nat) (e : lev) : bool :=
  match e with LCall _ j _ _ _ | LStart j | LEnd j _ => Nat.eqb j i | _ => false end.
Lemma same_quiet : forall ls tr i, forallb (fun e => negb (touches i (snd e))) ls = true -> same tr (tr ++ ls) i.
Proof.
  induction ls as [|[t e] ls IH]; intros tr i H; [rewrite app_nil_r; repeat split|]. cbn [forallb snd] in H. apply andb_prop in H. destruct H as [H1 H2].
  destruct (IH (tr ++ [(t, e)]) i H2) as (A & B & C). rewrite <- app_assoc in A, B, C. cbn [app] in A, B, C.
  assert (S1 : same tr (tr ++ [(t, e)]) i).
  { unfold same. rewrite requested_app, started_app. unfold intervals. rewrite flat_map_app. cbn [fold_left flat_map]. unfold requested1, started1. cbn [snd fst app].
    destruct e; cbn [touches] in H1; rewrite ?app_nil_r; try (destruct r); auto; rewrite ?app_nil_r; auto; apply Bool.negb_true_iff in H1; rewrite H1; rewrite ?app_nil_r; auto. }
  destruct S1 as (D & E & F). split; [exact (eq_trans A D)|]. split; [exact (eq_trans B E) | exact (eq_trans C F)].
Qed.
Lemma same_trans : forall a b c i, same a b i -> same b c i -> same a c i.
Proof. intros a b c i (A & B & C) (D & E & F). repeat split; congruence. Qed.
Lemma asked_requested : forall tr i x, asked tr i = Some x -> exists r, requested tr i = Some r.
Proof.
  intros tr i x H. destruct (requested tr i) as [r|] eqn:R; [eauto|]. exfalso. revert x H R.
  induction tr as [|[c e] tr IH] using rev_ind; intros x H R; [discriminate|]. rewrite asked_app in H. rewrite requested_app in R. cbn [fold_left] in R.
  unfold asked1, requested1 in *. cbn [snd fst] in *. destruct e; eauto; try (destruct (Nat.eqb id i); [discriminate | eauto]).
  destruct r; eauto. destruct (Nat.eqb id i); [discriminate | eauto].
Qed.

Record bstate := BState { b_clock : Z; b_bag : list task; b_run : list task; b_dead : list nat; b_next : nat }.
Definition core (t : task) : task := at_tp t 0.

Section Abs.
Variable ontime : bool.

Inductive bstep : bstate -> list ltev -> bstate -> Prop :=
| B_call : forall c b r d n v h k code x,
    bstep (BState c b r d n) [(c, LCall v n h k x)] (BState c (Task n h k code 0 x 0 :: b) r d (S n))
| B_start : forall c b b' r d n t, Permutation b (t :: b') -> ~ In (t_h t) d -> (ontime = true -> t_due t <= c) ->
    bstep (BState c b r d n) [(c, LStart (t_id t))] (BState c b' (t :: r) d n)
| B_drop : forall c b b' r d n t, Permutation b (t :: b') -> In (t_h t) d ->
    bstep (BState c b r d n) [(c, LDrop (t_id t))] (BState c b' r d n)
| B_fail : forall c b b' r d n t, Permutation b (t :: b') ->
    bstep (BState c b r d n) [(c, LErr (t_id t) (t_h t))] (BState c b' r d n)
| B_end : forall c b r r' d n t x, Permutation r (t :: r') -> x = RStop \/ x = RThrow ->
    bstep (BState c b r d n) [(c, LEnd (t_id t) x)] (BState c b r' d n)
| B_ret : forall c b r r' d n t v, Permutation r (t :: r') ->
    bstep (BState c b r d n) [(c, LEnd (t_id t) (RAgain v))] (BState c (core (ran c t v) :: b) r' d n)
| B_note : forall c b r d n t e, In t b -> e = LPick (t_id t) \/ (exists tp, e = LAgain (t_id t) tp) ->
    bstep (BState c b r d n) [(c, e)] (BState c b r d n)
| B_err : forall c b r d n i h, (i < n)%nat -> ~ In i (tids (b ++ r)) ->
    bstep (BState c b r d n) [(c, LErr i h)] (BState c b r d n)
| B_disp : forall c b r d n h, bstep (BState c b r d n) [(c, LDisp h)] (BState c b r (h :: d) n)
| B_silent : forall c c' b b' r d n, c <= c' -> Permutation b b' ->
    bstep (BState c b r d n) [] (BState c' b' r d n).

Inductive bexec : bstate -> list ltev -> bstate -> Prop :=
| BNil : forall c, bexec c [] c
| BSnoc : forall c tr c1 ls c2, bexec c tr c1 -> bstep c1 ls c2 -> bexec c (tr ++ ls) c2.
Definition b_init (t0 : Z) := BState t0 [] [] [] 0.

Lemma bexec_app : forall c tr1 c1 tr2 c2, bexec c tr1 c1 -> bexec c1 tr2 c2 -> bexec c (tr1 ++ tr2) c2.
Proof.
  intros c tr1 c1 tr2 c2 E1 E2. revert E1. induction E2; intro E1.
  - now rewrite app_nil_r.
  - rewrite app_assoc. econstructor; eauto.
Qed.
Lemma bexec_one : forall c ls c', bstep c ls c' -> bexec c ls c'.
Proof. intros c ls c' H. change ls with ([] ++ ls). econstructor; [constructor | exact H]. Qed.
Lemma bexec_cons : forall c x c1 ls c2, bstep c [x] c1 -> bexec c1 ls c2 -> bexec c (x :: ls) c2.
Proof. intros. change (x :: ls) with ([x] ++ ls). eapply bexec_app; [eapply bexec_one|]; eauto. Qed.
Lemma bstep_len : forall s ls s', bstep s ls s' -> ls = [] \/ exists x, ls = [x].
Proof. intros s ls s' H. inversion H; subst; eauto. Qed.
Lemma b_locate : forall c0 tr c, bexec c0 tr c -> forall a x b, tr = a ++ x :: b ->
  exists s s', bexec c0 a s /\ bstep s [x] s' /\ bexec s' b c.
Proof.
  induction 1 as [c|c tr c1 ls c2 E IH ST]; intros a x b EQ; [destruct a; discriminate|].
  destruct (bstep_len _ _ _ ST) as [-> | [y ->]].
  - rewrite app_nil_r in EQ. destruct (IH _ _ _ EQ) as (s & s' & A & B & C). exists s, s'. repeat split; auto.
    rewrite <- (app_nil_r b). econstructor; eauto.
  - destruct b as [|z b _] using rev_ind.
    + apply app_inj_tail in EQ. destruct EQ as [-> ->]. exists c1, c2. repeat split; auto. constructor.
    + change (a ++ x :: b ++ [z]) with (a ++ (x :: b) ++ [z]) in EQ. rewrite app_assoc in EQ.
      apply app_inj_tail in EQ. destruct EQ as [-> ->].
      destruct (IH _ _ _ eq_refl) as (s & s' & A & B & C). exists s, s'. repeat split; auto.
      econstructor; eauto.
Qed.

Definition btasks (s : bstate) : list task := b_bag s ++ b_run s.
Definition bids (s : bstate) : list nat := tids (btasks s).

Lemma tids_perm : forall l l', Permutation l l' -> Permutation (tids l) (tids l').
Proof. intros. now apply Permutation_map. Qed.

(** How the set of tasks changes. *)
Definition ends_of (e : lev) : option nat :=
  match e with LDrop i | LErr i _ | LEnd i RStop | LEnd i RThrow => Some i | _ => None end.
Lemma b_ids : forall s ls s', bstep s ls s' ->
  (exists v h k x, ls = [(b_clock s, LCall v (b_next s) h k x)] /\ b_next s' = S (b_next s) /\ Permutation (bids s') (b_next s :: bids s)) \/
  (b_next s' = b_next s /\ Permutation (bids s') (bids s) /\
     (forall e, In e ls -> (forall i, id_of (snd e) = Some i -> In i (bids s) \/ exists h, snd e = LErr i h /\ (i < b_next s)%nat /\ ~ In i (bids s)) /\
        (forall i, ends_of (snd e) = Some i -> ~ In i (bids s)) /\ (forall v i h k x, snd e <> LCall v i h k x))) \/
  (b_next s' = b_next s /\ exists i e, ls = [(b_clock s, e)] /\ ends_of e = Some i /\ Permutation (bids s) (i :: bids s') /\ (forall v i h k x, e <> LCall v i h k x) /\
     id_of e = Some i).
Proof.
  intros s ls s' ST. inversion ST; subst; unfold bids, btasks; cbn [b_bag b_run b_next b_clock].
  - left. do 4 eexists. split; [reflexivity|]. split; [reflexivity|]. cbn. apply Permutation_refl.
  - right. left. split; [reflexivity|]. assert (P : Permutation (b' ++ t :: r) (b ++ r)).
    { rewrite <- Permutation_middle. apply Permutation_sym. change (t :: b' ++ r) with ((t :: b') ++ r). now apply Permutation_app_tail. }
    split; [now apply tids_perm|]. intros e [<-|[]]. cbn. split; [|split; discriminate].
    intros i E. injection E as <-. left. apply in_map. apply (Permutation_in _ P). apply in_elt.
  - right. right. split; [reflexivity|]. do 2 eexists. split; [reflexivity|]. split; [reflexivity|]. split; [|split; [discriminate | reflexivity]].
    change (t_id t :: tids (b' ++ r)) with (tids ((t :: b') ++ r)). apply tids_perm. now apply Permutation_app_tail.
  - right. right. split; [reflexivity|]. do 2 eexists. split; [reflexivity|]. split; [reflexivity|]. split; [|split; [discriminate | reflexivity]].
    change (t_id t :: tids (b' ++ r)) with (tids ((t :: b') ++ r)). apply tids_perm. now apply Permutation_app_tail.
  - right. right. split; [reflexivity|]. exists (t_id t). eexists. split; [reflexivity|]. split; [destruct H0; subst; reflexivity|]. split; [|split; [discriminate | reflexivity]].
    change (t_id t :: tids (b ++ r')) with (tids (t :: b ++ r')). apply tids_perm. rewrite H. apply Permutation_sym, Permutation_middle.
  - right. left. split; [reflexivity|]. assert (P : Permutation (tids ((core (ran c t v) :: b) ++ r')) (tids (b ++ r))).
    { change (tids ((core (ran c t v) :: b) ++ r')) with (tids (t :: b ++ r')). apply tids_perm. rewrite H. apply Permutation_middle. }
    split; [exact P|]. intros e [<-|[]]. cbn. split; [|split; discriminate].
    intros i E. injection E as <-. left. apply (Permutation_in _ P). now left.
  - right. left. split; [reflexivity|]. split; [apply Permutation_refl|]. intros x [<-|[]]. cbn.
    destruct H0 as [-> | [tp ->]]; cbn; (split; [|split; discriminate]); intros i E; injection E as <-; left; apply in_map, in_or_app; now left.
  - right. left. split; [reflexivity|]. split; [apply Permutation_refl|]. intros x [<-|[]]. cbn. split; [|split; [|discriminate]].
    + intros j E. injection E as <-. right. exists h. auto.
    + intros j E. injection E as <-. auto.
  - right. left. split; [reflexivity|]. split; [apply Permutation_refl|]. intros x [<-|[]]. cbn. split; [|split]; discriminate.
  - right. left. split; [reflexivity|]. split; [|intros ? []]. apply tids_perm. apply Permutation_app_tail. now apply Permutation_sym.
Qed.

Record BIds (tr : list ltev) (s : bstate) : Prop := {
  w_nodup : NoDup (bids s);
  w_lt : forall i, In i (bids s) -> (i < b_next s)%nat;
  w_ev : forall t e i, In (t, e) tr -> id_of e = Some i -> (i < b_next s)%nat;
  w_settled : forall i, settled tr i -> ~ In i (bids s);
  w_called : forall i, called tr i -> In i (bids s) \/ settled tr i
}.
Lemma settled_app : forall tr ls i, settled (tr ++ ls) i <-> settled tr i \/ settled ls i.
Proof.
  intros. unfold settled. rewrite over_app. split.
  - intros [[H|H] | [h H]]; auto. apply happened_app in H. destruct H; eauto.
  - intros [[H | [h H]] | [H | [h H]]]; auto; right; exists h; rewrite happened_app; auto.
Qed.
Lemma settled_one : forall c e i, settled [(c, e)] i <-> ends_of e = Some i.
Proof.
  intros c e i. unfold settled, over. rewrite !happened_one. split.
  - intros [[H|[H|H]] | [h H]]; try (subst e; reflexivity). rewrite happened_one in H. now subst e.
  - destruct e; cbn; try discriminate.
    + intro H. injection H as ->. auto.
    + destruct r; cbn; try discriminate; intro H; injection H as ->; auto.
    + intro H. injection H as ->. right. exists h. now rewrite happened_one.
Qed.
Lemma settled_nil : forall i, ~ settled [] i.
Proof. intros i [[H|[H|H]] | [h H]]; eapply happened_nil; eauto. Qed.
Lemma b_idinv : forall t0 tr s, bexec (b_init t0) tr s -> BIds tr s.
Proof.
  intros t0 tr s X. remember (b_init t0) as s0 eqn:E0. induction X as [c|c tr c1 ls c2 X IH ST]; subst.
  - split; cbn; try (intros; contradiction); [constructor | | ]; intros i H; [exfalso; eapply settled_nil; eauto | exfalso; destruct H as (? & ? & ? & ? & ? & [])].
  - specialize (IH eq_refl). destruct IH as [ND LT EV SE CA].
    destruct (b_ids _ _ _ ST) as [(v & h & k & x & -> & NX & P) | [(NX & P & EVS) | (NX & i & e & -> & EN & P & NC & IO)]].
    + split.
      * apply (Permutation_NoDup (Permutation_sym P)). constructor; auto. intro I. specialize (LT _ I). lia.
      * intros i I. apply (Permutation_in _ P) in I. rewrite NX. destruct I as [<- | I]; [lia|]. specialize (LT _ I). lia.
      * intros t e i I E. rewrite NX. apply in_app_or in I. destruct I as [I | [I|[]]]; [specialize (EV _ _ _ I E); lia|].
        injection I as <- <-. injection E as <-. lia.
      * intros i I J. apply (Permutation_in _ P) in J. apply settled_app in I. destruct I as [I|I]; [|apply settled_one in I; discriminate].
        destruct J as [<- | J]; [|eapply SE; eauto].
        assert (exists t e, In (t, e) tr /\ id_of e = Some (b_next c1)) as (t & e & I2 & I3).
        { destruct I as [[[t I]|[[t I]|[t I]]] | [h' [t I]]]; do 2 eexists; (split; [exact I | reflexivity]). }
        specialize (EV _ _ _ I2 I3). lia.
      * intros i I. apply called_app in I. destruct I as [I|I].
        -- destruct (CA _ I); [left; apply (Permutation_in _ (Permutation_sym P)); now right | right; apply settled_app; auto].
        -- left. apply called_one in I. destruct I as (? & ? & ? & ? & E). injection E as -> <- -> -> ->. apply (Permutation_in _ (Permutation_sym P)). now left.
    + split.
      * apply (Permutation_NoDup (Permutation_sym P)). exact ND.
      * intros i I. rewrite NX. apply LT. now apply (Permutation_in _ P).
      * intros t e i I E. rewrite NX. apply in_app_or in I. destruct I as [I | I]; [eapply EV; eauto|].
        destruct (EVS _ I) as (A & _). destruct (A _ E) as [J | (h & _ & J & _)]; auto.
      * intros i I J. apply (Permutation_in _ P) in J. apply settled_app in I. destruct I as [I|I]; [eapply SE; eauto|].
        destruct (bstep_len _ _ _ ST) as [-> | [[c3 e] ->]]; [eapply settled_nil; eauto|]. apply settled_one in I.
        destruct (EVS _ (or_introl eq_refl)) as (_ & B & _). now apply (B _ I).
      * intros i I. apply called_app in I. destruct I as [I|I].
        -- destruct (CA _ I); [left; now apply (Permutation_in _ (Permutation_sym P)) | right; apply settled_app; auto].
        -- destruct (bstep_len _ _ _ ST) as [-> | [[c3 e] ->]]; [destruct I as (? & ? & ? & ? & ? & [])|].
           apply called_one in I. destruct I as (? & ? & ? & ? & ->). destruct (EVS _ (or_introl eq_refl)) as (_ & _ & B). now contradiction (B x i x0 x1 x2).
    + assert (ND' := Permutation_NoDup P ND). inversion ND' as [|? ? NI ND2]; subst. split.
      * exact ND2.
      * intros j I. rewrite NX. apply LT. apply (Permutation_in _ (Permutation_sym P)). now right.
      * intros t e' j I E. rewrite NX. apply in_app_or in I. destruct I as [I | [I|[]]]; [eapply EV; eauto|]. injection I as <- <-.
        rewrite IO in E. injection E as <-. apply LT. apply (Permutation_in _ (Permutation_sym P)). now left.
      * intros j I J. apply settled_app in I. destruct I as [I|I].
        -- apply (SE _ I). apply (Permutation_in _ (Permutation_sym P)). now right.
        -- apply settled_one in I. congruence.
      * intros j I. apply called_app in I. destruct I as [I|I]; [|apply called_one in I; destruct I as (? & ? & ? & ? & ->); now contradiction (NC x j x0 x1 x2)].
        destruct (CA _ I) as [J|J]; [|right; apply settled_app; auto].
        apply (Permutation_in _ P) in J. destruct J as [<- | J]; auto. right. apply settled_app. right. apply settled_one. exact EN.
Qed.

(** Where the tasks come from. *)
Lemma b_tasks : forall s ls s', bstep s ls s' -> NoDup (bids s) -> forall t, In t (btasks s') ->
  (In t (btasks s) /\ (forall c id v, ls = [(c, LEnd id (RAgain v))] -> id <> t_id t)) \/
  (exists v h k code x, t = Task (b_next s) h k code 0 x 0 /\ ls = [(b_clock s, LCall v (b_next s) h k x)]) \/
  (exists u v, In u (b_run s) /\ t = core (ran (b_clock s) u v) /\ ls = [(b_clock s, LEnd (t_id u) (RAgain v))]).
Proof.
  intros s ls s' ST ND t I. inversion ST; subst; unfold btasks in *; cbn [b_bag b_run b_next b_clock] in *.
  - apply in_app_or in I. destruct I as [[<- | I] | I]; [right; left; do 5 eexists; split; reflexivity | left; split; [apply in_or_app; auto | discriminate] ..].
  - left. split; [|discriminate]. apply in_app_or in I. apply in_or_app.
    destruct I as [I | [<- | I]]; auto; left; apply (Permutation_in _ (Permutation_sym H)); cbn; auto.
  - left. split; [|discriminate]. apply in_app_or in I. apply in_or_app.
    destruct I as [I | I]; auto; left; apply (Permutation_in _ (Permutation_sym H)); cbn; auto.
  - left. split; [|discriminate]. apply in_app_or in I. apply in_or_app.
    destruct I as [I | I]; auto; left; apply (Permutation_in _ (Permutation_sym H)); cbn; auto.
  - left. split; [|intros c0 id v E; assert (EX : x = RAgain v) by congruence; destruct H0; congruence]. apply in_app_or in I. apply in_or_app.
    destruct I as [I | I]; auto; right; apply (Permutation_in _ (Permutation_sym H)); cbn; auto.
  - apply in_app_or in I. destruct I as [[<- | I] | I].
    + right. right. exists t0, v. split; [|split; reflexivity]. apply (Permutation_in _ (Permutation_sym H)). now left.
    + left. split; [apply in_or_app; auto|]. intros c0 id v0 E. injection E as <- <- <-. intro E.
      unfold bids, btasks, tids in ND. cbn [b_bag b_run] in ND. rewrite map_app in ND.
      assert (J : In (t_id t0) (map t_id r)) by (apply in_map, (Permutation_in _ (Permutation_sym H)); now left).
      assert (K : In (t_id t) (map t_id b)) by now apply in_map.
      rewrite E in J. clear - ND J K. induction b as [|y b IH]; [contradiction|]. cbn in ND. inversion ND; subst. destruct K as [K|K]; [|auto].
      apply H1. rewrite K. apply in_or_app. auto.
    + left. split; [apply in_or_app; right; apply (Permutation_in _ (Permutation_sym H)); now right|]. intros c0 id v0 E. injection E as <- <- <-. intro E.
      assert (ND2 : NoDup (map t_id r)).
      { unfold bids, btasks, tids in ND. cbn [b_bag b_run] in ND. rewrite map_app in ND. clear - ND. induction b; auto. inversion ND; auto. }
      apply (Permutation_NoDup (Permutation_map t_id H)) in ND2. cbn in ND2. inversion ND2; subst. apply H2. rewrite E. now apply in_map.
  - left. split; auto. intros c0 i v E. destruct H0 as [->|[? ->]]; discriminate.
  - left. split; auto. discriminate.
  - left. split; auto. discriminate.
  - left. split; [|discriminate]. apply in_app_or in I. apply in_or_app. destruct I as [I|I]; auto. left. apply (Permutation_in _ (Permutation_sym H0)). auto.
Qed.

Lemma b_asked : forall t0 tr s, bexec (b_init t0) tr s ->
  forall t, In t (btasks s) -> asked tr (t_id t) = Some (t_h t, t_k t, t_due t).
Proof.
  intros t0 tr s X. remember (b_init t0) as s0 eqn:E0. induction X as [c|c tr c1 ls c2 X IH ST]; subst; [contradiction|].
  specialize (IH eq_refl). pose proof (b_idinv _ _ _ X) as [ND LT EV SE CA].
  intros t I. destruct (b_tasks _ _ _ ST ND _ I) as [[O D] | [(v & h & k & code & x & -> & ->) | (u & v & Iu & -> & ->)]].
  - destruct (bstep_len _ _ _ ST) as [-> | [[c x] ->]]; [rewrite app_nil_r; auto|].
    rewrite asked_app. pose proof (IH _ O) as A. rewrite A.
    destruct x as [v id h k tp| | | | | |id r| | | | | | | | | | |]; unfold asked1; cbn [snd fst]; auto.
    + destruct (Nat.eqb_spec id (t_id t)); auto. exfalso.
      assert (id = b_next c1) by (inversion ST; subst; auto; match goal with M : _ \/ (exists _, _) |- _ => destruct M as [|[]]; discriminate end).
      specialize (LT (t_id t) (in_map _ _ _ O)). lia.
    + destruct r as [| |v]; auto. destruct (Nat.eqb_spec id (t_id t)) as [E|]; auto. exfalso. eapply D; eauto.
  - rewrite asked_app. cbn. now rewrite Nat.eqb_refl.
  - rewrite asked_app. cbn. rewrite Nat.eqb_refl, (IH u) by (apply in_or_app; auto). unfold next_due. cbn. now destruct (t_k u).
Qed.

Lemma b_runs : forall t0 tr s, bexec (b_init t0) tr s -> forall t, In t (btasks s) -> t_runs t = length (intervals tr (t_id t)).
Proof.
  intros t0 tr s X. remember (b_init t0) as s0 eqn:E0. induction X as [c|c tr c1 ls c2 X IH ST]; subst; [contradiction|].
  specialize (IH eq_refl). pose proof (b_idinv _ _ _ X) as [ND LT EV SE CA]. unfold intervals in *.
  intros t I. rewrite flat_map_app, app_length. destruct (b_tasks _ _ _ ST ND _ I) as [[O D] | [(v & h & k & code & x & -> & ->) | (u & v & Iu & -> & ->)]].
  - pose proof (IH _ O) as A. unfold ltev in *. rewrite <- A. destruct (bstep_len _ _ _ ST) as [-> | [[c x] ->]]; [cbn; lia|]. cbn [flat_map snd]. rewrite app_nil_r.
    destruct x; cbn; try lia. destruct r as [| |v]; cbn; try lia. destruct (Nat.eqb_spec id (t_id t)) as [E|]; cbn; try lia. exfalso. eapply D; eauto.
  - cbn [t_runs t_id flat_map snd app length].
    assert (NE : forall t e, In (t, e) tr -> id_of e <> Some (b_next c1)) by (intros t e J E; specialize (EV _ _ _ J E); lia).
    assert (N2 : flat_map (fun e => match snd e with LEnd i (RAgain v) => if Nat.eqb i (b_next c1) then [v] else [] | _ => [] end) tr = []).
    { clear - NE. induction tr as [|[t e] tr IH]; auto. cbn [flat_map snd]. rewrite IH by (intros; eapply NE; right; eauto).
      specialize (NE t e (or_introl eq_refl)). destruct e; cbn in *; auto. destruct r; auto. destruct (Nat.eqb_spec id (b_next c1)); auto. congruence. }
    unfold ltev in *. rewrite N2. reflexivity.
  - cbn [flat_map snd core ran at_tp t_id t_runs]. rewrite Nat.eqb_refl. specialize (IH u (in_or_app _ _ _ (or_intror Iu))). unfold ltev in *. rewrite <- IH. cbn. lia.
Qed.

Lemma b_gone : forall t0 tr s, bexec (b_init t0) tr s -> forall h, In h (b_dead s) <-> gone tr h.
Proof.
  intros t0 tr s X. remember (b_init t0) as s0 eqn:E0. induction X as [c|c tr c1 ls c2 X IH ST]; subst; intro h.
  - cbn. split; [contradiction | intros (t & [])].
  - specialize (IH eq_refl h). inversion ST; subst; unfold gone in *; cbn [b_dead] in *;
      rewrite ?app_nil_r, ?happened_app, ?happened_one; cbn [In] in *; try tauto;
      try (split; [intro; left; tauto | intros [|]; [tauto | discriminate]]).
    + split; [intro; left; tauto | intros [J|J]; [tauto|]]. destruct H0 as [->|[? ->]]; discriminate.
    + split; [intros [-> | J]; tauto | intros [J | J]; [tauto | injection J as ->; tauto]].
Qed.

Lemma b_inrun : forall t0 tr s, bexec (b_init t0) tr s -> forall i, In i (in_run tr) <-> In i (tids (b_run s)).
Proof.
  intros t0 tr s X. remember (b_init t0) as s0 eqn:E0. induction X as [c|c tr c1 ls c2 X IH ST]; subst; intro i; [reflexivity|].
  specialize (IH eq_refl i). pose proof (b_idinv _ _ _ X) as [ND _ _ _ _].
  assert (REM : forall r r' t, Permutation r (t :: r') -> b_run c1 = r -> b_run c2 = r' ->
    (In i (filter (fun x => negb (Nat.eqb x (t_id t))) (in_run tr)) <-> In i (tids (b_run c2)))).
  { intros r r' t P E1 E2. rewrite filter_In, IH, E1, E2.
    assert (ND2 : NoDup (tids r)).
    { unfold bids, btasks, tids in ND. rewrite map_app, E1 in ND. clear - ND. induction (b_bag c1); auto. inversion ND; auto. }
    assert (P2 := tids_perm _ _ P). assert (ND3 := Permutation_NoDup P2 ND2). cbn in ND3. inversion ND3 as [|? ? NI ND4]; subst.
    destruct (Nat.eqb_spec i (t_id t)) as [->|NE]; cbn; split.
    - intros [_ F]. discriminate.
    - intro J. contradiction.
    - intros [J _]. apply (Permutation_in _ P2) in J. destruct J as [J|J]; congruence.
    - intro J. split; auto. apply (Permutation_in _ (Permutation_sym P2)). now right. }
  inversion ST; subst; rewrite ?app_nil_r, ?in_run_app; cbn [runs1 snd b_run] in *; try tauto.
  - cbn. cbn in IH. rewrite IH. tauto.
  - exact (REM _ _ _ H eq_refl eq_refl).
  - exact (REM _ _ _ H eq_refl eq_refl).
  - destruct H0 as [->|[? ->]]; exact IH.
Qed.

(** Runs per request. *)
Lemma b_times : forall t0 tr s, bexec (b_init t0) tr s -> forall i,
  (times (is_start i) tr + count_occ Nat.eq_dec (tids (b_bag s)) i <= times (is_req i) tr)%nat.
Proof.
  intros t0 tr s X i. remember (b_init t0) as s0 eqn:E0. induction X as [c|c tr c1 ls c2 X IH ST]; subst; [cbn; lia|].
  specialize (IH eq_refl). unfold times in *. rewrite !filter_app, !app_length.
  assert (PC : forall l l', Permutation l l' -> count_occ Nat.eq_dec (tids l) i = count_occ Nat.eq_dec (tids l') i).
  { intros l l' P. apply (Permutation_count_occ Nat.eq_dec). now apply tids_perm. }
  inversion ST; subst; cbn [b_bag filter snd is_start is_req length app] in *; try (apply PC in H; rewrite H in IH);
    cbn [tids map count_occ core at_tp ran t_id] in *; fold (tids b) in *; try fold (tids b') in *;
    repeat match goal with |- context [Nat.eqb ?x ?y] => destruct (Nat.eqb_spec x y); subst end;
    repeat match goal with |- context [Nat.eq_dec ?x ?y] => destruct (Nat.eq_dec x y) end;
    repeat match goal with H : context [Nat.eq_dec ?x ?y] |- _ => destruct (Nat.eq_dec x y) end;
    cbn [length]; unfold ltev, tids in *; try congruence; try lia.
  - destruct H0 as [->|[? ->]]; cbn; lia.
  - apply PC in H0. unfold tids in H0. lia.
Qed.

Lemma b_period : forall t0 tr s, bexec (b_init t0) tr s -> forall id h x, asked tr id = Some (h, KThis, x) ->
  exists f, lfirst tr id = Some f /\ x = f + zsum (intervals tr id).
Proof.
  intros t0 tr s X. remember (b_init t0) as s0 eqn:E0. induction X as [c|c tr c1 ls c2 X IH ST]; subst; [discriminate|].
  specialize (IH eq_refl). pose proof (b_idinv _ _ _ X) as [_ _ EV _ _]. intros id h x A.
  destruct (bstep_len _ _ _ ST) as [-> | [[c1' e] ->]]; [rewrite app_nil_r in *; eauto|].
  rewrite asked_app in A. unfold lfirst, intervals in *. rewrite fold_left_app, flat_map_app. cbn [fold_left flat_map snd app].
  assert (OLD : asked tr id = Some (h, KThis, x) -> (forall id' v, e <> LEnd id' (RAgain v) \/ id' <> id) ->
    exists f, lfirst1 id (fold_left (lfirst1 id) tr None) (c1', e) = Some f /\
    x = f + zsum (flat_map (fun e => match snd e with LEnd i (RAgain v) => if Nat.eqb i id then [v] else [] | _ => [] end) tr ++ match e with LEnd i (RAgain v) => if Nat.eqb i id then [v] else [] | _ => [] end ++ [])).
  { intros A' NE. destruct (IH _ _ _ A') as (f & F & E). exists f. rewrite F. split; [reflexivity|]. rewrite !zsum_app.
    destruct e; cbn; try lia. destruct r; cbn; try lia. destruct (Nat.eqb_spec id0 id); cbn; try lia. destruct (NE id0 v); congruence. }
  destruct e; unfold asked1 in A; cbn [snd fst] in A; try (apply OLD; [exact A | intros; left; congruence]).
  - (* LCall *) destruct (Nat.eqb_spec id0 id); [|apply OLD; [exact A | intros; left; congruence]]. subst id0. injection A as -> -> ->.
    assert (id = b_next c1) by (inversion ST; subst; auto; match goal with M : _ \/ (exists _, _) |- _ => destruct M as [|[]]; discriminate end). subst id.
    assert (NE : forall t e, In (t, e) tr -> id_of e <> Some (b_next c1)) by (intros t e I E; specialize (EV _ _ _ I E); lia).
    exists x. split.
    + assert (N1 : fold_left (lfirst1 (b_next c1)) tr None = None).
      { clear - NE. induction tr as [|[t e] tr IH]; auto. cbn [fold_left].
        replace (lfirst1 (b_next c1) None (t, e)) with (@None Z); [apply IH; intros; eapply NE; right; eauto|].
        specialize (NE t e (or_introl eq_refl)). destruct e; cbn in *; auto. destruct (Nat.eqb_spec id (b_next c1)); congruence. }
      rewrite N1. cbn. now rewrite Nat.eqb_refl.
    + assert (N2 : flat_map (fun e => match snd e with LEnd i (RAgain v) => if Nat.eqb i (b_next c1) then [v] else [] | _ => [] end) tr = []).
      { clear - NE. induction tr as [|[t e] tr IH]; auto. cbn [flat_map snd]. rewrite IH by (intros; eapply NE; right; eauto).
        specialize (NE t e (or_introl eq_refl)). destruct e; cbn in *; auto. destruct r; auto. destruct (Nat.eqb_spec id (b_next c1)); auto. congruence. }
      unfold ltev in *. rewrite N2. cbn. lia.
  - (* LEnd *) destruct r; try (apply OLD; [exact A | intros; left; congruence]).
    destruct (Nat.eqb_spec id0 id) as [|DI]; [|apply OLD; [exact A | intros id' v'; destruct (Nat.eq_dec id' id); [left; congruence | now right]]]. subst id0.
    destruct (asked tr id) as [[[h' k'] x']|] eqn:A'; [|discriminate].
    destruct k'; try discriminate. injection A as -> <-.
    destruct (IH _ _ _ A') as (f & F & E). exists f. rewrite F. split; [reflexivity|]. rewrite zsum_app. change (zsum ([v] ++ [])) with (v + 0). unfold ltev in *. lia.
Qed.

(** A task is submitted once. *)
Lemma b_call_once : forall t0 tr s, bexec (b_init t0) tr s -> forall i v h k x v' h' k' x',
  happened tr (LCall v i h k x) -> happened tr (LCall v' i h' k' x') -> v = v' /\ h = h' /\ k = k' /\ x = x'.
Proof.
  intros t0 tr s X. remember (b_init t0) as s0 eqn:E0. induction X as [c|c tr c1 ls c2 X IH ST]; subst; intros i v h k x v' h' k' x' A B.
  - contradiction (happened_nil _ A).
  - specialize (IH eq_refl). pose proof (b_idinv _ _ _ X) as [_ _ EV _ _].
    apply happened_app in A. apply happened_app in B.
    assert (NEW : forall v h k x, happened ls (LCall v i h k x) -> i = b_next c1 /\ ls = [(b_clock c1, LCall v i h k x)]).
    { intros v0 h0 k0 x0 (t & J). inversion ST; subst; try contradiction; destruct J as [J|[]]; try discriminate; try (injection J as -> -> -> -> -> ->; split; reflexivity).
      injection J as -> ->. match goal with M : _ \/ (exists _, _) |- _ => destruct M as [|[]]; discriminate end. }
    assert (OLD : forall v h k x, happened tr (LCall v i h k x) -> (i < b_next c1)%nat) by (intros v0 h0 k0 x0 (t & J); eapply EV; [exact J | reflexivity]).
    destruct A as [A|A], B as [B|B].
    + eapply IH; eauto.
    + apply NEW in B. apply OLD in A. lia.
    + apply NEW in A. apply OLD in B. lia.
    + apply NEW in A. apply NEW in B. destruct A as [_ A], B as [_ B]. rewrite A in B. injection B; auto.
Qed.

(** Clock. *)
Lemma b_clock_mono : forall s tr s', bexec s tr s' -> b_clock s <= b_clock s' /\ (forall t e, In (t, e) tr -> b_clock s <= t <= b_clock s').
Proof.
  induction 1 as [c|c tr c1 ls c2 X IH ST]; [split; [lia | intros ? ? []]|]. destruct IH as [A B].
  assert (M : b_clock c1 <= b_clock c2 /\ (forall t e, In (t, e) ls -> t = b_clock c1)).
  { inversion ST; subst; cbn; (split; [lia|]); intros t' e' I; try contradiction; destruct I as [I|[]]; injection I as <- <-; reflexivity. }
  destruct M as [M1 M2]. split; [lia|]. intros t e I. apply in_app_or in I. destruct I as [I|I]; [specialize (B _ _ I); lia|].
  specialize (M2 _ _ I). lia.
Qed.

Section Facts.
  Variables (t0 : Z) (tr : list ltev) (s : bstate).
  Hypothesis X : bexec (b_init t0) tr s.

  Lemma g_start : forall a t id b, tr = a ++ (t, LStart id) :: b ->
    exists h k x, asked a id = Some (h, k, x) /\ (ontime = true -> x <= t) /\ ~ gone a h /\ ~ In id (in_run a).
  Proof.
    intros a t id b E. destruct (b_locate _ _ _ X _ _ _ E) as (s1 & s2 & X1 & ST & _).
    pose proof (b_asked _ _ _ X1) as A. pose proof (b_gone _ _ _ X1) as D. pose proof (b_inrun _ _ _ X1 id) as R.
    pose proof (b_idinv _ _ _ X1) as [ND _ _ _ _].
    inversion ST; subst; [|match goal with M : _ \/ (exists _, _) |- _ => destruct M as [|[]]; discriminate end].
    match goal with P : Permutation b0 (?t :: _) |- _ => rename t into u; rename P into PP end.
    do 3 eexists. split; [apply A; apply in_or_app; left; apply (Permutation_in _ (Permutation_sym PP)); now left|]. split; auto.
    split; [rewrite <- D; auto|]. rewrite R. cbn [b_run].
    unfold bids, btasks, tids in ND. cbn [b_bag b_run] in ND.
    apply (Permutation_NoDup (Permutation_map t_id (Permutation_app_tail r PP))) in ND. cbn in ND. inversion ND as [|? ? NI _]; subst.
    intro J. apply NI. rewrite map_app. apply in_or_app. auto.
  Qed.
  Lemma g_drop : forall a t id b, tr = a ++ (t, LDrop id) :: b ->
    exists h k x, asked a id = Some (h, k, x) /\ gone a h.
  Proof.
    intros a t id b E. destruct (b_locate _ _ _ X _ _ _ E) as (s1 & s2 & X1 & ST & _).
    pose proof (b_asked _ _ _ X1) as A. pose proof (b_gone _ _ _ X1) as D.
    inversion ST; subst; [|match goal with M : _ \/ (exists _, _) |- _ => destruct M as [|[]]; discriminate end].
    match goal with P : Permutation b0 (?t :: _) |- _ => rename t into u; rename P into PP end.
    do 3 eexists. split; [apply A; apply in_or_app; left; apply (Permutation_in _ (Permutation_sym PP)); now left|]. now apply D.
  Qed.
  (** Nothing happens to a task that is over (an error may still be reported). *)
  Lemma g_over : forall a t e b id, tr = a ++ (t, e) :: b -> settled a id -> id_of e = Some id -> exists h, e = LErr id h.
  Proof.
    intros a t e b id E O I. destruct (b_locate _ _ _ X _ _ _ E) as (s1 & s2 & X1 & ST & _).
    pose proof (b_idinv _ _ _ X1) as [ND LT EV SE CA]. pose proof (SE _ O) as NI.
    destruct (b_ids _ _ _ ST) as [(v & h & k & x & EE & NX & P) | [(NX & P & EVS) | (NX & i & e' & EE & EN & P & NC & IO)]].
    - injection EE as -> ->. injection I as <-.
      assert (exists t e, In (t, e) a /\ id_of e = Some (b_next s1)) as (t & e & I2 & I3).
      { destruct O as [[[t O]|[[t O]|[t O]]] | [h' [t O]]]; do 2 eexists; (split; [exact O | reflexivity]). }
      specialize (EV _ _ _ I2 I3). lia.
    - destruct (EVS _ (or_introl eq_refl)) as (A & _). cbn [snd] in A. destruct (A _ I) as [J | (h & -> & _)]; [contradiction | eauto].
    - injection EE as -> <-. rewrite IO in I. injection I as ->. exfalso. apply NI. apply (Permutation_in _ (Permutation_sym P)). now left.
  Qed.
  (** Nobody forgotten. *)
  Lemma g_all : btasks s = [] -> forall id, called tr id -> settled tr id.
  Proof.
    intros E id C. destruct (w_called _ _ (b_idinv _ _ _ X) _ C) as [J|J]; auto. unfold bids in J. rewrite E in J. contradiction.
  Qed.
End Facts.
End Abs.
