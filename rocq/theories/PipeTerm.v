(** Every run of a pipeline with hops comes to rest. *)
From Coq Require Import Permutation.
From Verif Require Import Base Machine MachineProofs ObserverModel MultiSpec OpsSpec ChainSpec ChainModel ChainProofs TreeSpec TreeModel TreeEnd Concur DelaySpec DelayModel DelayProofs PipeSpec PipeModel PipeProofs PipeEnd.
Open Scope nat_scope.

Section Sum.
  Fixpoint sumf (f : nat -> nat) (k : nat) : nat := match k with 0 => 0 | S k => sumf f k + f k end.
  Lemma sumf_ext : forall f g k, (forall i, i < k -> f i = g i) -> sumf f k = sumf g k.
  Proof. induction k as [|k IH]; intro H; cbn [sumf]; auto. rewrite IH, H by auto. auto. Qed.
  Lemma sumf_one : forall f g i k, i < k -> (forall j, j < k -> j <> i -> f j = g j) -> sumf f k + g i = sumf g k + f i.
  Proof.
    intros f g i. induction k as [|k IH]; intros L H; [lia|]. cbn [sumf]. destruct (Nat.eq_dec i k) as [->|N].
    - rewrite (sumf_ext f g k) by (intros j J; apply H; lia). lia.
    - rewrite (H k) by lia. specialize (IH ltac:(lia) ltac:(intros; apply H; lia)). lia.
  Qed.
  Fixpoint wsum {A} (f : A -> nat) (l : list A) : nat := match l with [] => 0 | x :: r => f x + wsum f r end.
  Lemma wsum_app : forall A (f : A -> nat) a b, wsum f (a ++ b) = wsum f a + wsum f b.
  Proof. induction a as [|x a IH]; intro b; cbn; auto. rewrite IH. lia. Qed.
  Lemma wsum_perm : forall A (f : A -> nat) a b, Permutation a b -> wsum f a = wsum f b.
  Proof. induction 1; cbn; lia. Qed.
  Lemma wsum_le : forall A (f g : A -> nat) l, (forall x, In x l -> f x <= g x) -> wsum f l <= wsum g l.
  Proof. induction l as [|x l IH]; intro H; cbn; auto. pose proof (H x (or_introl eq_refl)). specialize (IH ltac:(intros; apply H; now right)). lia. Qed.
End Sum.

Section Term.
  Context {V : Type} (D : machine V) (segs : list (chain V V)) (hops : nat -> hop) (src0 : list (ev V)) (d0 : mst D).
  Hypothesis LD : lawful D.
  Hypothesis NE : segs <> [].
  Variables (workers clock : list nat) (kills : nat).
  Notation n := (last_seg segs).
  Notation st := (pst D).
  Notation step := (pstep D segs hops).
  Notation c0 := (p_init D segs src0 d0, p_threads segs workers clock kills).
  Ltac fs := cbn [p_src p_hist p_cur p_out p_q p_fin p_act p_pend p_now p_d set_cur set_out set_pend] in *.

  (** What a task still costs; a task that finds its event due has the event's share already. *)
  Definition cost (s : st) (x : pitem) : nat :=
    match x with
    | PSrc => 12
    | PDrain i => match p_q s i with (_, t) :: _ => if t <=? p_now s then 6 else 12 | [] => 12 end
    | PEmit _ => 14
    | PFlush _ => 13
    | PBack => 14
    | PSched _ _ => 9
    | PTask _ _ => 7
    | PWork _ => 0
    | PClock _ | PKill => 1
    end.
  (** Calls chain i makes or will make. *)
  Definition left (s : st) (i : nat) : nat := length (p_out s i) + (length (arrives segs (S i) src0) - length (seg_log (seg segs i) (p_hist s i))).
  Definition measure (s : st) (l : list pitem) : nat :=
    3 * length (p_src s) + 20 * sumf (left s) (S n) + 9 * sumf (fun i => length (p_q s i)) (S n) + wsum (cost s) l + 8 * length (p_pend s).

  Lemma cost_next : forall s i, cost s (next_of i) <= 12.
  Proof. intros s [|i]; cbn; auto. destruct (p_q s (S i)) as [|[e t] r]; auto. destruct (t <=? p_now s); lia. Qed.
  Lemma cost_same : forall s s' l, p_q s' = p_q s -> p_now s' = p_now s -> wsum (cost s') l = wsum (cost s) l.
  Proof. intros s s' l E F. assert (X : forall x, cost s' x = cost s x) by (intros []; cbn; rewrite ?E, ?F; auto). induction l as [|x l IH]; cbn [wsum]; [reflexivity|]. now rewrite X, IH. Qed.
  Lemma drain_in : forall s it l i, invT D segs hops s (it :: l) -> tokp segs i it = true -> ~ In (PDrain i) l.
  Proof. intros s it l i T H K. pose proof (own_tok _ _ _ _ _ _ _ T H) as Z. pose proof (count_in (tokp segs i) l _ K (Nat.eqb_refl i)). lia. Qed.

  Lemma measure_step : forall s it l s' its ls tr, invT D segs hops s (it :: l) -> (dead s = false -> invF D segs src0 s tr) -> okx segs it ->
    step s it = Some (s', its, ls) -> measure s' (its ++ l) < measure s (it :: l).
  Proof.
    intros s it l s' its ls tr T IFs OK ST. pose proof ST as ST0. unfold measure. rewrite wsum_app. cbn [wsum].
    destruct it; cbn [pstep okx] in ST, OK; unfold to_worker in ST.
    - destruct (p_src s) as [|e r] eqn:Q; injection ST as <- <- <-.
      + cbn [wsum cost]. rewrite ?Q. cbn [length]. lia.
      + fs. rewrite (sumf_ext (left (set_cur D s 0 [e] r (p_q s 0))) (left s)) by reflexivity.
        rewrite (sumf_ext (fun i => length (upd 0 (p_q s 0) (p_q s) i)) (fun i => length (p_q s i))) by (intros; now rewrite upd_id).
        assert (WL : wsum (cost (set_cur D s 0 [e] r (p_q s 0))) l <= wsum (cost s) l) by (apply wsum_le; intros x _; destruct x; cbn; auto; rewrite upd_id; auto).
        cbn [length wsum cost]. lia.
    - destruct (p_q s i) as [|[e t] r] eqn:Q; [|destruct (t <=? p_now s) eqn:QT].
      + injection ST as <- <- <-. fs. cbn [wsum cost]. rewrite Q. rewrite (cost_same s _ l) by reflexivity. rewrite (sumf_ext (left _) (left s)) by reflexivity. lia.
      + injection ST as <- <- <-. fs. rewrite (sumf_ext (left _) (left s)) by reflexivity.
        pose proof (sumf_one (fun k => length (upd i r (p_q s) k)) (fun k => length (p_q s k)) i (S n) ltac:(lia) ltac:(intros; cbv beta; now rewrite upd_other)) as SU. cbv beta in SU. rewrite upd_same, Q in SU. cbn [length] in SU.
        assert (WL : wsum (cost (set_cur D s i [e] (p_src s) r)) l <= wsum (cost s) l).
        { apply wsum_le. intros x IX. destruct x; cbn; auto. destruct (Nat.eq_dec i0 i) as [->|N]; [|rewrite upd_other by auto; auto]. exfalso. eapply (drain_in _ _ _ i T); eauto. apply Nat.eqb_refl. }
        cbn [wsum cost]. rewrite Q, QT. lia.
      + destruct (h_where (hops i)); injection ST as <- <- <-; [|cbn [wsum cost]; rewrite Q, QT; lia]. fs. rewrite (cost_same s _ l), (sumf_ext (left _) (left s)) by reflexivity. cbn [wsum cost]. rewrite Q, QT. rewrite app_length. cbn [length]. lia.
    - destruct (dead s) eqn:DS; injection ST as <- <- <-.
      + fs. rewrite (sumf_ext (left _) (left s)) by reflexivity. rewrite (sumf_ext (fun k => length (upd i (p_q s i) (p_q s) k)) (fun k => length (p_q s k))) by (intros; now rewrite upd_id).
        assert (WL : wsum (cost (set_cur D s i [] (p_src s) (p_q s i))) l <= wsum (cost s) l) by (apply wsum_le; intros x _; destruct x; cbn; auto; rewrite upd_id; auto).
        cbn [wsum]. pose proof (cost_next (set_cur D s i [] (p_src s) (p_q s i)) i). cbn [cost]. lia.
      + fs. rewrite (cost_same s _ l) by reflexivity. cbn [wsum cost].
        pose proof (invF_step D segs hops src0 LD _ _ _ _ _ _ tr T (fun _ => IFs eq_refl) ST0 DS) as F'. specialize (IFs eq_refl).
        pose proof (own_out _ _ _ _ _ _ _ T (Nat.eqb_refl i) eq_refl) as OU.
        match goal with |- context [sumf (left ?a) _] => set (s1 := a) in * end.
        assert (LE : sumf (left s1) (S n) = sumf (left s) (S n)); [|lia]. apply sumf_ext. intros k K. unfold left. subst s1. fs. destruct (Nat.eq_dec k i) as [->|N]; [|rewrite !upd_other by auto; auto].
        rewrite !upd_same, OU. destruct (flow_prefix _ _ _ NE _ _ F' i OK) as (z & E). fs. rewrite upd_same in E. rewrite E, !app_length. pose proof (f_equal (@length _) (seg_more (seg segs i) (p_hist s i) (p_cur s i))) as M. rewrite app_length in M. cbn [length]. lia.
    - destruct (p_out s i) as [|e r] eqn:Q.
      + injection ST as <- <- <-. cbn [wsum cost]. pose proof (cost_next s i). lia.
      + assert (SU : forall s1, p_hist s1 = p_hist s -> p_out s1 = upd i r (p_out s) -> sumf (left s1) (S n) + 1 = sumf (left s) (S n)).
        { intros s1 H1 H2. pose proof (sumf_one (left s1) (left s) i (S n) ltac:(lia)) as SU. assert (H3 : forall j, j < S n -> j <> i -> left s1 j = left s j) by (intros j _ N; unfold left; rewrite H1, H2, upd_other; auto). specialize (SU H3).
          unfold left in SU at 2 4. rewrite H1, H2, upd_same, Q in SU. cbn [length] in SU. lia. }
        destruct (Nat.eqb_spec i n) as [EN|EN].
        * destruct (dead s) eqn:DS; injection ST as <- <- <-; fs; rewrite (cost_same s _ l) by reflexivity; cbn [wsum cost].
          -- pose proof (SU (set_out D s i r) eq_refl eq_refl). lia.
          -- match goal with |- context [sumf (left ?a) _] => pose proof (SU a eq_refl eq_refl) end. lia.
        * destruct (dead s || p_fin s (S i)).
          -- injection ST as <- <- <-; fs; rewrite (cost_same s _ l) by reflexivity; cbn [wsum cost]. pose proof (SU (set_out D s i r) eq_refl eq_refl). lia.
          -- assert (G : exists t, s' = PS (p_src s) (p_hist s) (p_cur s) (upd i r (p_out s)) (upd (S i) (p_q s (S i) ++ [(e, t)]) (p_q s)) (upd (S i) (is_term e) (p_fin s)) (upd (S i) true (p_act s)) (p_pend s) (p_now s) (p_d s) /\
                    its = (if p_act s (S i) then [] else [PSched (S i) t]) ++ [PFlush i]).
             { destruct e as [v|x|], (h_clear (hops (S i))); try discriminate; injection ST as <- <- <-; eauto. }
             destruct G as (t & -> & ->). fs. match goal with |- context [sumf (left ?a) _] => pose proof (SU a eq_refl eq_refl); set (s1 := a) in * end.
             pose proof (sumf_one (fun k => length (upd (S i) (p_q s (S i) ++ [(e, t)]) (p_q s) k)) (fun k => length (p_q s k)) (S i) (S n) ltac:(lia) ltac:(intros; cbv beta; now rewrite upd_other)) as SQ. cbv beta in SQ. rewrite upd_same, app_length in SQ. cbn [length] in SQ.
             assert (WL : wsum (cost s1) l <= wsum (cost s) l).
             { apply wsum_le. intros x _. destruct x; cbn; auto. destruct (Nat.eq_dec i0 (S i)) as [->|N]; [|rewrite upd_other by auto; auto]. rewrite upd_same. destruct (p_q s (S i)) as [|[e1 t1] q1]; cbn; auto. destruct (t <=? p_now s); auto. lia. }
             destruct (p_act s (S i)); cbn [wsum cost app]; lia.
    - injection ST as <- <- <-. cbn [wsum cost]. lia.
    - destruct (h_where (hops i)); injection ST as <- <- <-; [|cbn [wsum cost]; lia]. fs. rewrite (cost_same s _ l), (sumf_ext (left _) (left s)) by reflexivity. cbn [wsum cost]. rewrite app_length. cbn [length]. lia.
    - destruct (dead s) eqn:DS; [|destruct (t <=? p_now s) eqn:QT; [|discriminate]]; injection ST as <- <- <-; cbn [wsum cost]; [lia|].
      destruct (t_time _ _ _ _ _ T i t) as (e & r & Q); [right; left; now left|]. rewrite Q, QT. lia.
    - destruct (pick hops w (p_pend s)) as [[[i t] r]|] eqn:Q; [|discriminate]. injection ST as <- <- <-. destruct (pick_some _ _ _ _ _ _ Q) as (P & _). apply Permutation_length in P. cbn [length] in P.
      fs. rewrite (cost_same s _ l) by reflexivity. rewrite (sumf_ext (left _) (left s)) by reflexivity. cbn [wsum cost]. lia.
    - injection ST as <- <- <-. fs. match goal with |- context [sumf (left ?a) _] => set (s1 := a) in * end. rewrite (sumf_ext (left s1) (left s)) by reflexivity.
      assert (WL : wsum (cost s1) l <= wsum (cost s) l).
      { apply wsum_le. intros x _. destruct x; cbn; auto. destruct (p_q s i) as [|[e t] q]; auto. match goal with |- context [t <=? p_now s + ?m] => destruct (Nat.leb_spec t (p_now s)), (Nat.leb_spec t (p_now s + m)); lia end. }
      cbn [wsum cost]. lia.
    - injection ST as <- <- <-. fs. match goal with |- context [sumf (left ?a) _] => set (s1 := a) in * end. rewrite (sumf_ext (left s1) (left s)) by reflexivity. rewrite (cost_same s _ l) by reflexivity. cbn [wsum cost]. lia.
  Qed.
  Lemma measure_perm : forall s l l', Permutation l l' -> measure s l' = measure s l.
  Proof. intros s l l' P. unfold measure. now rewrite (wsum_perm _ _ _ _ P). Qed.

  (** Runs with the number of their steps. *)
  Inductive runs : st * list (list pitem) -> nat -> Prop :=
  | runs_0 : runs c0 0
  | runs_S : forall k c ls c', runs c k -> gstep step c ls c' -> runs c' (S k).
  Lemma runs_exec : forall c k, runs c k -> exists tr, gexec step c0 tr c.
  Proof.
    induction 1 as [|k c ls c' R (tr & X) G]; [exists []; apply GNil|]. exists (tr ++ ls). eapply GSnoc; eauto.
  Qed.
  Lemma runs_bound : forall c k, runs c k -> k + measure (fst c) (concat (snd c)) <= measure (fst c0) (concat (snd c0)).
  Proof.
    induction 1 as [|k c ls c' R IH G]; [auto|]. destruct (runs_exec _ _ R) as (tr & X). destruct c as [s ts].
    destruct (pipe_inv D segs hops src0 d0 LD workers clock kills NE _ _ _ X) as (T & F & _). destruct (ok_run D segs hops src0 d0 workers clock kills _ _ _ X) as (OK & _).
    inversion G as [s0 ts1 it rest ts2 s' its ls' ST Q1 Q2]; subst. cbn [fst snd] in *.
    assert (P : Permutation (concat (ts1 ++ (it :: rest) :: ts2)) (it :: concat (ts1 ++ rest :: ts2))) by (rewrite !concat_app; cbn [concat app]; symmetry; apply Permutation_middle).
    assert (P' : Permutation (concat (ts1 ++ (its ++ rest) :: ts2)) (its ++ concat (ts1 ++ rest :: ts2))).
    { rewrite !concat_app. cbn [concat]. rewrite <- app_assoc. rewrite !app_assoc. apply Permutation_app_tail. apply Permutation_app_tail. apply Permutation_app_comm. }
    assert (M : measure s' (concat (ts1 ++ (its ++ rest) :: ts2)) < measure s (concat (ts1 ++ (it :: rest) :: ts2))); [|lia].
    rewrite (measure_perm _ _ _ (Permutation_sym P')), (measure_perm _ _ _ (Permutation_sym P)).
    eapply measure_step; eauto.
    - eapply invT_perm; eauto.
    - rewrite Forall_forall in OK. apply OK. eapply Permutation_in; [symmetry; exact P|now left].
  Qed.
End Term.
