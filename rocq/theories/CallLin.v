(** Calls of several threads into one object, each call a sequence of atomic steps, and a
    generic linearizability argument for them. *)
From Verif Require Import Base Concur MultiSpec MultiLin.

Section Calls.
  (** [G] shared state, [K] program counter, [A] values of the events; thread i makes the
      calls of source i one after the other. *)
  Context {G K A : Type} (start : K) (stp : G -> nat -> ev A -> K -> option (G * option K)).

  Inductive citem := CEv (i : nat) (e : ev A) | CRun (i : nat) (e : ev A) (k : K).
  Definition cistep (g : G) (x : citem) : option (G * list citem * list (lab A)) :=
    match x with
    | CEv i e => Some (g, [CRun i e start], [Inv i e])
    | CRun i e k =>
        match stp g i e k with
        | Some (g', Some k') => Some (g', [CRun i e k'], [])
        | Some (g', None) => Some (g', [], [Ret i e])
        | None => None
        end
    end.
  Fixpoint cthreads_from (i : nat) (progs : list (list (ev A))) : list (list citem) :=
    match progs with [] => [] | p :: r => map (CEv i) p :: cthreads_from (S i) r end.
  Definition cthreads (progs : list (list (ev A))) := cthreads_from 0 progs.

  (** A single call without interruption, and calls one after the other. *)
  Fixpoint crun (fuel : nat) (g : G) (i : nat) (e : ev A) (k : K) : option G :=
    match fuel with
    | 0 => None
    | S f => match stp g i e k with
             | Some (g', Some k') => crun f g' i e k'
             | Some (g', None) => Some g'
             | None => None
             end
    end.

  (** What source i is doing; the flag says whether the call has taken effect. *)
  Inductive cact := Idle | Run (e : ev A) (k : K) (l : bool).
  Definition upd_run (c : nat -> cact) (i : nat) (r : cact) : nat -> cact :=
    fun j => if j =? i then r else c j.
  Lemma upd_same : forall c i r, upd_run c i r i = r.
  Proof. intros. unfold upd_run. now rewrite Nat.eqb_refl. Qed.
  Lemma upd_other : forall c i r j, j <> i -> upd_run c i r j = c j.
  Proof. intros. unfold upd_run. apply Nat.eqb_neq in H. now rewrite H. Qed.

  Variable progs : list (list (ev A)).
  Definition mk (i : nat) (x : ev A) : citem := CEv i x.

  Definition shape (i : nat) (r : cact) (t : list citem) (p : list (alab A)) : Prop :=
    match r with
    | Idle => exists done rest, nth i progs [] = done ++ rest /\ t = map (mk i) rest /\
                p = expand i (done)
    | Run e k l => exists done rest, nth i progs [] = done ++ e :: rest /\
                t = CRun i e k :: map (mk i) rest /\
                p = expand i (done) ++ Vis (Inv i e) :: (if l then [Lin i e] else [])
    end.

  (** Calls take effect: no other change. *)
  Definition lmove (c c' : nat -> cact) (tr tr' : list (alab A)) : Prop :=
    (exists ls, tr' = tr ++ map (fun x => Lin (fst x) (snd x)) ls) /\
    forall j, (c' j = c j /\ per j tr' = per j tr) \/
              (exists e k, c j = Run e k false /\ c' j = Run e k true /\ per j tr' = per j tr ++ [Lin j e]).

  Lemma lmove_refl : forall c tr, lmove c c tr tr.
  Proof. split; auto. exists []. symmetry. apply app_nil_r. Qed.
  Lemma lmove_erase : forall c c' tr tr', lmove c c' tr tr' -> erase tr' = erase tr.
  Proof.
    intros c c' tr tr' [[ls ->] _]. rewrite erase_app. replace (erase (map _ ls)) with (@nil (lab A)); [apply app_nil_r|].
    induction ls; auto.
  Qed.
  Lemma lmove_lin : forall c tr i e k, c i = Run e k false ->
    lmove c (upd_run c i (Run e k true)) tr (tr ++ [Lin i e]).
  Proof.
    intros c tr i e k H. split.
    - exists [(i, e)]. reflexivity.
    - intro j. rewrite per_app. destruct (Nat.eq_dec j i) as [->|N].
      + right. exists e, k. rewrite upd_same. cbn. now rewrite Nat.eqb_refl.
      + left. rewrite upd_other by auto. cbn. apply Nat.eqb_neq in N. rewrite Nat.eqb_sym, N. cbn. now rewrite app_nil_r.
  Qed.

  Lemma lmove_trans : forall c1 c2 c3 t1 t2 t3, lmove c1 c2 t1 t2 -> lmove c2 c3 t2 t3 ->
    lmove c1 c3 t1 t3.
  Proof.
    intros c1 c2 c3 t1 t2 t3 [[l1 ->] H1] [[l2 ->] H2]. split; [exists (l1 ++ l2); now rewrite map_app, app_assoc|]. intro j.
    destruct (H1 j) as [[a b]|(e & k & a & b & d)], (H2 j) as [[a' b']|(e' & k' & a' & b' & d')].
    - left. split; congruence.
    - right. exists e', k'. repeat split; congruence.
    - right. exists e, k. repeat split; congruence.
    - congruence.
  Qed.

  Variable J : G -> (nat -> cact) -> list (alab A) -> Prop.

  Hypothesis J_inv : forall g c tr i e, J g c tr -> c i = Idle ->
    J g (upd_run c i (Run e start false)) (tr ++ [Vis (Inv i e)]).
  Hypothesis J_step : forall g c tr i e k l g' k', J g c tr -> c i = Run e k l ->
    stp g i e k = Some (g', Some k') ->
    exists c' tr' l', lmove c c' tr tr' /\ c' i = Run e k l' /\ J g' (upd_run c' i (Run e k' l')) tr'.
  Hypothesis J_ret : forall g c tr i e k l g', J g c tr -> c i = Run e k l ->
    stp g i e k = Some (g', None) ->
    exists c' tr', lmove c c' tr tr' /\ c' i = Run e k true /\
      J g' (upd_run c' i Idle) (tr' ++ [Vis (Ret i e)]).

  Definition Full (g : G) (ts : list (list citem)) (tr : list (lab A)) : Prop :=
    exists c tr', erase tr' = tr /\ J g c tr' /\ forall i, shape i (c i) (nth i ts []) (per i tr').

  Lemma shape_move : forall c c' tr tr' i t, lmove c c' tr tr' ->
    shape i (c i) t (per i tr) -> shape i (c' i) t (per i tr').
  Proof.
    intros c c' tr tr' i t [_ M] S. destruct (M i) as [[-> ->]|(e & k & a & b & p)]; auto.
    rewrite a in S. rewrite b. destruct S as (d & r & S1 & S2 & S3). exists d, r.
    repeat split; auto. now rewrite p, S3, <- app_assoc.
  Qed.

  Lemma full_step : forall g ts1 it rest ts2 tr g' its ls,
    Full g (ts1 ++ (it :: rest) :: ts2) tr -> cistep g it = Some (g', its, ls) ->
    Full g' (ts1 ++ (its ++ rest) :: ts2) (tr ++ ls).
  Proof.
    intros g ts1 it rest ts2 tr g' its ls (c & tr' & E & HJ & SH) I.
    set (i := length ts1).
    assert (Si : shape i (c i) (it :: rest) (per i tr')).
    { specialize (SH i). unfold i in SH at 3. now rewrite nth_at in SH. }
    assert (OTH : forall j, j <> i -> nth j (ts1 ++ (its ++ rest) :: ts2) [] = nth j (ts1 ++ (it :: rest) :: ts2) []).
    { intros j N. now apply nth_other. }
    assert (AT : nth i (ts1 ++ (its ++ rest) :: ts2) [] = its ++ rest) by apply nth_at.
    destruct (c i) as [|e k l] eqn:C.
    - destruct Si as (done & rs & P & T & PE). destruct rs as [|e rs]; [discriminate|].
      injection T as -> ->. cbn in I. injection I as <- <- <-.
      exists (upd_run c i (Run e start false)), (tr' ++ [Vis (Inv i e)]). split; [|split].
      + rewrite erase_app, E. reflexivity.
      + now apply J_inv.
      + intro j. destruct (Nat.eq_dec j i) as [->|N].
        * rewrite upd_same, AT. cbn. exists done, rs. repeat split; auto.
          rewrite per_app, PE. cbn. now rewrite Nat.eqb_refl.
        * rewrite upd_other, OTH by auto. rewrite per_app. cbn. apply Nat.eqb_neq in N.
          rewrite Nat.eqb_sym, N, app_nil_r. apply SH.
    - destruct Si as (done & rs & P & T & PE). injection T as -> ->. cbn in I.
      destruct (stp g i e k) as [[g1 [k'|]]|] eqn:Q; try discriminate; cbn in I; injection I as <- <- <-.
      + destruct (J_step _ _ _ _ _ _ _ _ _ HJ C Q) as (c' & tr'' & l' & M & CI & J').
        exists (upd_run c' i (Run e k' l')), tr''. split; [|split]; auto.
        * rewrite app_nil_r. rewrite (lmove_erase _ _ _ _ M). auto.
        * intro j. destruct (Nat.eq_dec j i) as [->|N].
          -- rewrite upd_same, AT. cbn.
             assert (S' : shape i (c' i) (CRun i e k :: map (mk i) rs) (per i tr'')).
             { eapply shape_move; eauto. rewrite C. exists done, rs. auto. }
             rewrite CI in S'. destruct S' as (d2 & r2 & Q1 & Q2 & Q3). exists d2, r2.
             injection Q2 as Q2. repeat split; auto. now rewrite Q2.
          -- rewrite upd_other, OTH by auto. eapply shape_move; eauto.
      + destruct (J_ret _ _ _ _ _ _ _ _ HJ C Q) as (c' & tr'' & M & CI & J').
        exists (upd_run c' i Idle), (tr'' ++ [Vis (Ret i e)]). split; [|split]; auto.
        * rewrite erase_app. rewrite (lmove_erase _ _ _ _ M), E. reflexivity.
        * intro j. destruct (Nat.eq_dec j i) as [->|N].
          -- rewrite upd_same, AT. cbn.
             assert (S' : shape i (c' i) (CRun i e k :: map (mk i) rs) (per i tr'')).
             { eapply shape_move; eauto. rewrite C. exists done, rs. auto. }
             rewrite CI in S'. destruct S' as (d2 & r2 & Q1 & Q2 & Q3). exists (d2 ++ [e]), r2.
             injection Q2 as Q2. repeat split; auto.
             ++ rewrite <- app_assoc. auto.
             ++ rewrite per_app, Q3. cbn. rewrite Nat.eqb_refl, expand_app, <- app_assoc. reflexivity.
          -- rewrite upd_other, OTH by auto. rewrite per_app. cbn. apply Nat.eqb_neq in N.
             rewrite Nat.eqb_sym, N, app_nil_r. eapply shape_move; eauto.
  Qed.

  Variable g0 : G.
  Hypothesis J_init : J g0 (fun _ => Idle) [].

  Lemma nth_threads : forall (ps : list (list (ev A))) k i,
    nth i (cthreads_from k ps) [] = map (mk (k + i)) (nth i ps []).
  Proof.
    induction ps as [|p ps IH]; intros k i; cbn [cthreads_from map].
    - destruct i; reflexivity.
    - destruct i as [|i]; cbn [nth].
      + rewrite Nat.add_0_r. reflexivity.
      + rewrite IH. f_equal. f_equal. lia.
  Qed.

  Lemma shape_prefix : forall i r t p, shape i r t p -> prefix p (expand i (nth i progs [])).
  Proof.
    intros i r t p S. destruct r as [|e k l]; destruct S as (d & rs & -> & _ & ->).
    - rewrite expand_app. eexists. reflexivity.
    - rewrite expand_app. cbn. exists ((if l then [] else [Lin i e]) ++ Vis (Ret i e) :: expand i rs).
      rewrite <- app_assoc. f_equal. destruct l; reflexivity.
  Qed.

  Theorem lin_generic : forall tr c,
    gexec cistep (g0, cthreads progs) tr c ->
    exists cu tr', erase tr' = tr /\ J (fst c) cu tr' /\
      (forall i, prefix (per i tr') (expand i (nth i progs []))) /\
      (gfinished c -> forall i, cu i = Idle /\ per i tr' = expand i (nth i progs [])).
  Proof.
    intros tr c X.
    assert (F : Full (fst c) (snd c) tr).
    { eapply gexec_tinv with (istep := cistep) (Inv := Full); [|exact X|].
      - intros. eapply full_step; eauto.
      - exists (fun _ => Idle), []. repeat split; auto. intro i. cbn. exists [], (nth i progs []).
        repeat split; auto. unfold cthreads. now rewrite nth_threads. }
    destruct F as (cu & tr' & E & HJ & SH). exists cu, tr'. repeat split; auto.
    - intro i. eapply shape_prefix; eauto.
    - specialize (SH i). destruct (cu i) as [|e k l] eqn:C; auto. exfalso.
      destruct SH as (d & r & _ & T & _). destruct (Nat.lt_ge_cases i (length (snd c))) as [L|L].
      + rewrite (H (nth i (snd c) [])) in T; [discriminate|]. now apply nth_In.
      + rewrite nth_overflow in T by auto. discriminate.
    - pose proof (SH i) as S. destruct (cu i) as [|e k l] eqn:C.
      + destruct S as (d & r & P & T & PE). rewrite PE, P.
        assert (R : r = []).
        { destruct r as [|x r]; auto. exfalso. destruct (Nat.lt_ge_cases i (length (snd c))) as [L|L].
          - rewrite (H (nth i (snd c) [])) in T; [discriminate|]. now apply nth_In.
          - rewrite nth_overflow in T by auto. discriminate. }
        now rewrite R, app_nil_r.
      + exfalso. destruct S as (d & r & _ & T & _). destruct (Nat.lt_ge_cases i (length (snd c))) as [L|L].
        * rewrite (H (nth i (snd c) [])) in T; [discriminate|]. now apply nth_In.
        * rewrite nth_overflow in T by auto. discriminate.
  Qed.

  (** Calls that do not overlap take effect in their order. *)
  Fixpoint cseq (fuel : nat) (g : G) (h : hist A) : option G :=
    match h with
    | [] => Some g
    | (i, e) :: r => match crun fuel g i e start with Some g' => cseq fuel g' r | None => None end
    end.
  Lemma lins_map : forall ls : hist A, lins (map (fun x => Lin (fst x) (snd x)) ls) = ls.
  Proof. induction ls as [|[i e] ls IH]; [reflexivity|]. unfold lins in *. cbn [map flat_map fst snd app]. f_equal. exact IH. Qed.
  Lemma only_lin : forall c c' tr tr' i e k l, lmove c c' tr tr' -> c i = Run e k l -> (forall j, j <> i -> c j = Idle) ->
    (forall j, j <> i -> c' j = Idle) /\
    exists l', c' i = Run e k l' /\ lins tr' = lins tr ++ (if l then [] else if l' then [(i, e)] else []) /\ (l = true -> l' = true).
  Proof.
    intros c c' tr tr' i e k l [[ls ->] M] C O. split.
    { intros j N. destruct (M j) as [[-> _]|(? & ? & X & _)]; [auto|]. rewrite O in X by auto. discriminate. }
    assert (PJ : forall j, per j (map (fun x => Lin (fst x) (snd x)) ls) = map (fun x => Lin (fst x) (snd x)) (filter (fun x => fst x =? j) ls)).
    { intro j. clear. unfold per. induction ls as [|[a b] ls IH]; [reflexivity|]. cbn [map filter fst snd at_src]. destruct (a =? j); cbn [map fst snd]; [f_equal|]; exact IH. }
    assert (OT : forall j, j <> i -> filter (fun x => fst x =? j) ls = []).
    { intros j N. destruct (M j) as [[_ X]|(? & ? & X & _)]; [|rewrite O in X by auto; discriminate].
      rewrite per_app, PJ in X. rewrite <- app_nil_r in X. apply app_inv_head in X. now apply map_eq_nil in X. }
    assert (ALL : filter (fun x => fst x =? i) ls = ls).
    { clear - OT. assert (Y : forall x, In x ls -> fst x = i).
      { intros x I. destruct (Nat.eq_dec (fst x) i) as [|N]; auto. specialize (OT (fst x) N).
        assert (Z : In x (filter (fun y => fst y =? fst x) ls)) by (apply filter_In; split; auto; apply Nat.eqb_refl). rewrite OT in Z. destruct Z. }
      clear OT. induction ls as [|x ls' IH]; cbn; auto. rewrite (Y x (or_introl eq_refl)), Nat.eqb_refl. f_equal. apply IH.
      intros; apply Y; now right. }
    rewrite lins_app, lins_map. destruct (M i) as [[Q X]|(e1 & k1 & X & Q & Z)].
    - exists l. rewrite Q, C. split; auto. rewrite per_app, PJ, ALL, <- app_nil_r in X. apply app_inv_head in X. apply map_eq_nil in X. subst ls.
      split; auto. destruct l; reflexivity.
    - rewrite C in X. injection X as <- <- ->. exists true. split; auto. split; auto. rewrite per_app, PJ, ALL in Z. apply app_inv_head in Z.
      destruct ls as [|[a b] [|y ls]]; try discriminate. cbn in Z. injection Z as -> ->. reflexivity.
  Qed.
  Lemma crun_J : forall fuel g i e k l c tr g', J g c tr -> c i = Run e k l -> (forall j, j <> i -> c j = Idle) ->
    crun fuel g i e k = Some g' ->
    exists c' tr', J g' c' tr' /\ (forall j, c' j = Idle) /\ lins tr' = lins tr ++ (if l then [] else [(i, e)]).
  Proof.
    induction fuel as [|f IH]; intros g i e k l c tr g' HJ C O R; [discriminate|]. cbn in R.
    destruct (stp g i e k) as [[g1 [k'|]]|] eqn:Q; try discriminate.
    - destruct (J_step _ _ _ _ _ _ _ _ _ HJ C Q) as (c1 & t1 & l1 & M & CI & J1).
      destruct (only_lin _ _ _ _ _ _ _ _ M C O) as (O1 & l2 & C2 & LI & LL). rewrite CI in C2. injection C2 as <-.
      destruct (IH _ _ _ _ l1 _ _ _ J1 (upd_same _ _ _) ltac:(intros; rewrite upd_other; auto) R) as (c3 & t3 & J3 & I3 & L3).
      exists c3, t3. split; auto. split; auto. rewrite L3, LI, <- app_assoc. f_equal. destruct l; [now rewrite LL|]. destruct l1; reflexivity.
    - injection R as ->. destruct (J_ret _ _ _ _ _ _ _ _ HJ C Q) as (c1 & t1 & M & CI & J1).
      destruct (only_lin _ _ _ _ _ _ _ _ M C O) as (O1 & l2 & C2 & LI & LL). rewrite CI in C2. injection C2 as <-.
      exists (upd_run c1 i Idle), (t1 ++ [Vis (Ret i e)]). split; auto. split.
      + intro j. unfold upd_run. destruct (Nat.eqb_spec j i); auto.
      + rewrite lins_app, LI. cbn. now rewrite app_nil_r.
  Qed.
  Theorem seq_generic : forall fuel h g, cseq fuel g0 h = Some g -> exists c tr, J g c tr /\ (forall j, c j = Idle) /\ lins tr = h.
  Proof.
    intros fuel h. assert (X : forall h ga c tr g, J ga c tr -> (forall j, c j = Idle) -> cseq fuel ga h = Some g ->
      exists c tr', J g c tr' /\ (forall j, c j = Idle) /\ lins tr' = lins tr ++ h).
    { clear h. induction h as [|[i e] h IH]; intros ga c tr g HJ ID R; cbn in R.
      - injection R as <-. exists c, tr. now rewrite app_nil_r.
      - destruct (crun fuel ga i e start) as [g1|] eqn:Q; [|discriminate].
        destruct (crun_J _ _ _ _ _ false _ _ _ (J_inv _ _ _ i e HJ (ID i)) (upd_same _ _ _) ltac:(intros; rewrite upd_other; auto) Q) as (c1 & t1 & J1 & I1 & L1).
        destruct (IH _ _ _ _ J1 I1 R) as (c2 & t2 & J2 & I2 & L2). exists c2, t2. split; auto. split; auto.
        rewrite L2, L1, lins_app. cbn. now rewrite app_nil_r, <- app_assoc. }
    intros g R. destruct (X h g0 _ _ g J_init (fun _ => eq_refl) R) as (c & tr & HJ & ID & E). exists c, tr. auto.
  Qed.
End Calls.
