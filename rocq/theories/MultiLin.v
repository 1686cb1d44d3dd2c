(** Generic linearizability argument for the operators of MultiModel.v (callbacks that
    do not call back into the operator). *)
From Verif Require Import Base Machine MachineProofs Concur MultiSpec MultiModel.

Lemma erase_app : forall A (a b : list (alab A)), erase (a ++ b) = erase a ++ erase b.
Proof. intros. apply flat_map_app. Qed.
Lemma lins_app : forall A (a b : list (alab A)), lins (a ++ b) = lins a ++ lins b.
Proof. intros. apply flat_map_app. Qed.
Lemma per_app : forall A i (a b : list (alab A)), per i (a ++ b) = per i a ++ per i b.
Proof. intros. apply filter_app. Qed.
Lemma expand_app : forall A i (a b : list (ev A)), expand i (a ++ b) = expand i a ++ expand i b.
Proof. intros. apply flat_map_app. Qed.

Lemma nth_at : forall X (a : list X) x b d, nth (length a) (a ++ x :: b) d = x.
Proof. intros. rewrite app_nth2, Nat.sub_diag; auto. Qed.
Lemma nth_other : forall X (a : list X) x y b i d, i <> length a ->
  nth i (a ++ x :: b) d = nth i (a ++ y :: b) d.
Proof.
  induction a as [|z a IH]; intros x y b [|i] d H; cbn in *; auto; try lia.
Qed.

Section Generic.
  Context {A B : Type} (o : mop A B) (D : machine B).
  Notation gst := (gs o D).
  Let quiet : mst D -> list (nat * ev A) := fun _ => [].
  Notation pst := (pstep o D quiet).
  Notation ist := (istep o D quiet).

  (** What source i is doing; the flag says whether the call has taken effect. *)
  Inductive run := Idle | Run (e : ev A) (st : bool) (k : pc o) (l : bool).
  Definition upd_run (c : nat -> run) (i : nat) (r : run) : nat -> run :=
    fun j => if j =? i then r else c j.
  Lemma upd_same : forall c i r, upd_run c i r i = r.
  Proof. intros. unfold upd_run. now rewrite Nat.eqb_refl. Qed.
  Lemma upd_other : forall c i r j, j <> i -> upd_run c i r j = c j.
  Proof. intros. unfold upd_run. apply Nat.eqb_neq in H. now rewrite H. Qed.

  Variable progs : list (list (ev A * bool)).
  Definition mk (i : nat) (x : ev A * bool) : item o := IEv i (fst x) (snd x).

  Definition shape (i : nat) (r : run) (t : list (item o)) (p : list (alab A)) : Prop :=
    match r with
    | Idle => exists done rest, nth i progs [] = done ++ rest /\ t = map (mk i) rest /\
                p = expand i (map fst done)
    | Run e st k l => exists done rest, nth i progs [] = done ++ (e, st) :: rest /\
                t = IRun i e st k :: map (mk i) rest /\
                p = expand i (map fst done) ++ Vis (Inv i e) :: (if l then [Lin i e] else [])
    end.

  (** Calls take effect: no other change. *)
  Definition lmove (c c' : nat -> run) (tr tr' : list (alab A)) : Prop :=
    erase tr' = erase tr /\
    forall j, (c' j = c j /\ per j tr' = per j tr) \/
              (exists e st k, c j = Run e st k false /\ c' j = Run e st k true /\ per j tr' = per j tr ++ [Lin j e]).

  Lemma lmove_refl : forall c tr, lmove c c tr tr.
  Proof. split; auto. Qed.
  Lemma lmove_lin : forall c tr i e st k, c i = Run e st k false ->
    lmove c (upd_run c i (Run e st k true)) tr (tr ++ [Lin i e]).
  Proof.
    intros c tr i e st k H. split.
    - rewrite erase_app. cbn. apply app_nil_r.
    - intro j. rewrite per_app. destruct (Nat.eq_dec j i) as [->|N].
      + right. exists e, st, k. rewrite upd_same. cbn. now rewrite Nat.eqb_refl.
      + left. rewrite upd_other by auto. cbn. apply Nat.eqb_neq in N. rewrite Nat.eqb_sym, N. cbn. now rewrite app_nil_r.
  Qed.

  Lemma lmove_trans : forall c1 c2 c3 t1 t2 t3, lmove c1 c2 t1 t2 -> lmove c2 c3 t2 t3 ->
    lmove c1 c3 t1 t3.
  Proof.
    intros c1 c2 c3 t1 t2 t3 [E1 H1] [E2 H2]. split; [congruence|]. intro j.
    destruct (H1 j) as [[a b]|(e & st & k & a & b & d)], (H2 j) as [[a' b']|(e' & st' & k' & a' & b' & d')].
    - left. split; congruence.
    - right. exists e', st', k'. repeat split; congruence.
    - right. exists e, st, k. repeat split; congruence.
    - congruence.
  Qed.

  Variable J : gst -> (nat -> run) -> list (alab A) -> Prop.

  Hypothesis J_inv : forall g c tr i e st, J g c tr -> c i = Idle ->
    J g (upd_run c i (Run e st P0 false)) (tr ++ [Vis (Inv i e)]).
  Hypothesis J_step : forall g c tr i e st k l g' k' n, J g c tr -> c i = Run e st k l ->
    pst g i e st k = Some (g', Some k', n) ->
    exists c' tr' l', lmove c c' tr tr' /\ c' i = Run e st k l' /\ J g' (upd_run c' i (Run e st k' l')) tr'.
  Hypothesis J_ret : forall g c tr i e st k l g' n, J g c tr -> c i = Run e st k l ->
    pst g i e st k = Some (g', None, n) ->
    exists c' tr', lmove c c' tr tr' /\ c' i = Run e st k true /\
      J g' (upd_run c' i Idle) (tr' ++ [Vis (Ret i e)]).

  Definition Full (g : gst) (ts : list (list (item o))) (tr : list (lab A)) : Prop :=
    exists c tr', erase tr' = tr /\ J g c tr' /\ forall i, shape i (c i) (nth i ts []) (per i tr').

  Lemma pst_nil : forall g i e st k g' r n, pst g i e st k = Some (g', r, n) -> n = [].
  Proof.
    intros g i e st k g' r n H. destruct k; cbn in H;
      repeat match type of H with
             | context [match ?x with _ => _ end] => destruct x
             end; now inversion H.
  Qed.

  Lemma shape_move : forall c c' tr tr' i t, lmove c c' tr tr' ->
    shape i (c i) t (per i tr) -> shape i (c' i) t (per i tr').
  Proof.
    intros c c' tr tr' i t [_ M] S. destruct (M i) as [[-> ->]|(e & st & k & a & b & p)]; auto.
    rewrite a in S. rewrite b. destruct S as (d & r & S1 & S2 & S3). exists d, r.
    repeat split; auto. now rewrite p, S3, <- app_assoc.
  Qed.

  Lemma full_step : forall g ts1 it rest ts2 tr g' its ls,
    Full g (ts1 ++ (it :: rest) :: ts2) tr -> ist g it = Some (g', its, ls) ->
    Full g' (ts1 ++ (its ++ rest) :: ts2) (tr ++ ls).
  Proof.
    intros g ts1 it rest ts2 tr g' its ls (c & tr' & E & HJ & SH) I.
    set (i := length ts1).
    assert (Si : shape i (c i) (it :: rest) (per i tr')).
    { specialize (SH i). unfold i in SH at 3. now rewrite nth_at in SH. }
    assert (OTH : forall j, j <> i -> nth j (ts1 ++ (its ++ rest) :: ts2) [] = nth j (ts1 ++ (it :: rest) :: ts2) []).
    { intros j N. now apply nth_other. }
    assert (AT : nth i (ts1 ++ (its ++ rest) :: ts2) [] = its ++ rest) by apply nth_at.
    destruct (c i) as [|e st k l] eqn:C.
    - destruct Si as (done & rs & P & T & PE). destruct rs as [|[e st] rs]; [discriminate|].
      injection T as -> ->. cbn in I. injection I as <- <- <-.
      exists (upd_run c i (Run e st P0 false)), (tr' ++ [Vis (Inv i e)]). split; [|split].
      + rewrite erase_app, E. reflexivity.
      + now apply J_inv.
      + intro j. destruct (Nat.eq_dec j i) as [->|N].
        * rewrite upd_same, AT. cbn. exists done, rs. repeat split; auto.
          rewrite per_app, PE. cbn. now rewrite Nat.eqb_refl.
        * rewrite upd_other, OTH by auto. rewrite per_app. cbn. apply Nat.eqb_neq in N.
          rewrite Nat.eqb_sym, N, app_nil_r. apply SH.
    - destruct Si as (done & rs & P & T & PE). injection T as -> ->. cbn in I.
      destruct (pst g i e st k) as [[[g1 [k'|]] n]|] eqn:Q; try discriminate;
        pose proof (pst_nil _ _ _ _ _ _ _ _ Q) as ->; cbn in I; injection I as <- <- <-.
      + destruct (J_step _ _ _ _ _ _ _ _ _ _ _ HJ C Q) as (c' & tr'' & l' & M & CI & J').
        exists (upd_run c' i (Run e st k' l')), tr''. split; [|split]; auto.
        * rewrite app_nil_r. destruct M as [-> _]. auto.
        * intro j. destruct (Nat.eq_dec j i) as [->|N].
          -- rewrite upd_same, AT. cbn.
             assert (S' : shape i (c' i) (IRun i e st k :: map (mk i) rs) (per i tr'')).
             { eapply shape_move; eauto. rewrite C. exists done, rs. auto. }
             rewrite CI in S'. destruct S' as (d2 & r2 & Q1 & Q2 & Q3). exists d2, r2.
             injection Q2 as Q2. repeat split; auto. now rewrite Q2.
          -- rewrite upd_other, OTH by auto. eapply shape_move; eauto.
      + destruct (J_ret _ _ _ _ _ _ _ _ _ _ HJ C Q) as (c' & tr'' & M & CI & J').
        exists (upd_run c' i Idle), (tr'' ++ [Vis (Ret i e)]). split; [|split]; auto.
        * rewrite erase_app. destruct M as [-> _]. rewrite E. reflexivity.
        * intro j. destruct (Nat.eq_dec j i) as [->|N].
          -- rewrite upd_same, AT. cbn.
             assert (S' : shape i (c' i) (IRun i e st k :: map (mk i) rs) (per i tr'')).
             { eapply shape_move; eauto. rewrite C. exists done, rs. auto. }
             rewrite CI in S'. destruct S' as (d2 & r2 & Q1 & Q2 & Q3). exists (d2 ++ [(e, st)]), r2.
             injection Q2 as Q2. repeat split; auto.
             ++ rewrite <- app_assoc. auto.
             ++ rewrite per_app, Q3. cbn. rewrite Nat.eqb_refl, map_app, expand_app, <- app_assoc. reflexivity.
          -- rewrite upd_other, OTH by auto. rewrite per_app. cbn. apply Nat.eqb_neq in N.
             rewrite Nat.eqb_sym, N, app_nil_r. eapply shape_move; eauto.
  Qed.

  Variable d0 : mst D.
  Hypothesis J_init : J (g_init o D d0) (fun _ => Idle) [].

  Lemma nth_threads : forall (ps : list (list (ev A * bool))) k i,
    nth i (map (map (fun x => IEv (fst x) (fst (snd x)) (snd (snd x)))) (number k ps)) [] =
    map (mk (k + i)) (nth i ps []).
  Proof.
    induction ps as [|p ps IH]; intros k i; cbn [number map].
    - destruct i; reflexivity.
    - destruct i as [|i]; cbn [nth].
      + rewrite map_map, Nat.add_0_r. reflexivity.
      + rewrite IH. f_equal. f_equal. lia.
  Qed.

  Lemma shape_prefix : forall i r t p, shape i r t p -> prefix p (expand i (map fst (nth i progs []))).
  Proof.
    intros i r t p S. destruct r as [|e st k l]; destruct S as (d & rs & -> & _ & ->).
    - rewrite map_app, expand_app. eexists. reflexivity.
    - rewrite map_app, expand_app. cbn. exists ((if l then [] else [Lin i e]) ++ Vis (Ret i e) :: expand i (map fst rs)).
      rewrite <- app_assoc. f_equal. destruct l; reflexivity.
  Qed.

  Theorem lin_generic : forall tr c,
    gexec ist (g_init o D d0, threads o progs) tr c ->
    exists cu tr', erase tr' = tr /\ J (fst c) cu tr' /\
      (forall i, prefix (per i tr') (expand i (map fst (nth i progs [])))) /\
      (gfinished c -> forall i, cu i = Idle /\ per i tr' = expand i (map fst (nth i progs []))).
  Proof.
    intros tr c X.
    assert (F : Full (fst c) (snd c) tr).
    { eapply gexec_tinv with (istep := ist) (Inv := Full); [|exact X|].
      - intros. eapply full_step; eauto.
      - exists (fun _ => Idle), []. repeat split; auto. intro i. cbn. exists [], (nth i progs []).
        repeat split; auto. unfold threads. now rewrite nth_threads. }
    destruct F as (cu & tr' & E & HJ & SH). exists cu, tr'. repeat split; auto.
    - intro i. eapply shape_prefix; eauto.
    - specialize (SH i). destruct (cu i) as [|e st k l] eqn:C; auto. exfalso.
      destruct SH as (d & r & _ & T & _). destruct (Nat.lt_ge_cases i (length (snd c))) as [L|L].
      + rewrite (H (nth i (snd c) [])) in T; [discriminate|]. now apply nth_In.
      + rewrite nth_overflow in T by auto. discriminate.
    - pose proof (SH i) as S. destruct (cu i) as [|e st k l] eqn:C.
      + destruct S as (d & r & P & T & PE). rewrite PE, P.
        assert (R : r = []).
        { destruct r as [|x r]; auto. exfalso. destruct (Nat.lt_ge_cases i (length (snd c))) as [L|L].
          - rewrite (H (nth i (snd c) [])) in T; [discriminate|]. now apply nth_In.
          - rewrite nth_overflow in T by auto. discriminate. }
        now rewrite R, app_nil_r.
      + exfalso. destruct S as (d & r & _ & T & _). destruct (Nat.lt_ge_cases i (length (snd c))) as [L|L].
        * rewrite (H (nth i (snd c) [])) in T; [discriminate|]. now apply nth_In.
        * rewrite nth_overflow in T by auto. discriminate.
  Qed.
End Generic.
