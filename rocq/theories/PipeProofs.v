(** Pipelines with hops: one task per hop at a time, nothing is lost or turned around. *)
From Coq Require Import Permutation.
From Verif Require Import Base Machine MachineProofs ObserverModel MultiSpec OpsSpec ChainSpec ChainModel ChainProofs TreeSpec TreeModel TreeEnd Concur DelaySpec DelayModel DelayProofs RegSpec RegModel RegProofs PipeSpec PipeModel.
Open Scope nat_scope.

(** ** One chain *)
Section Seg.
  Context {V : Type}.
  Implicit Types (c : chain V V) (l : list (ev V)).
  Lemma seg_shown : forall c l, seg_log c l = heard (chain_spec c l).
  Proof. intros. apply (log_after c l). Qed.
  Lemma seg_grows : forall c l r, prefix (seg_log c l) (seg_log c (l ++ r)).
  Proof.
    intros c l r. revert l. induction r as [|e r IH]; intro l; [exists []; now rewrite !app_nil_r|].
    change (e :: r) with ([e] ++ r). rewrite app_assoc. destruct (IH (l ++ [e])) as (q & ->). rewrite !seg_shown. pose proof (shown_grows c l e) as G. unfold RegSpec.shown in G. rewrite G. rewrite <- app_assoc. eexists. reflexivity.
  Qed.
  Lemma seg_prefix : forall c a b, prefix a b -> prefix (seg_log c a) (seg_log c b).
  Proof. intros c a b (r & ->). apply seg_grows. Qed.
  Lemma seg_more : forall c l r, seg_log c (l ++ r) = seg_log c l ++ skipn (length (seg_log c l)) (seg_log c (l ++ r)).
  Proof. intros c l r. destruct (seg_grows c l r) as (q & E). rewrite E at 2. rewrite E. now rewrite skipn_app, skipn_all, Nat.sub_diag. Qed.
  Lemma seg_heard : forall c l, seg_log c (heard l) = seg_log c l.
  Proof. intros c l. unfold seg_log. rewrite run_heard; auto. apply build_lawful. apply leaf_lawful. Qed.
  Lemma after_spec : forall A B (c : chain A B) C (d : chain B C) q, chain_spec (after_chain c C d) q = chain_spec d (chain_spec c q).
  Proof. induction c as [A|A B B' o r IH]; intros C d q; cbn; auto. Qed.
  Lemma after_log : forall c d l, seg_log (after_chain c V d) l = seg_log d (seg_log c l).
  Proof. intros c d l. rewrite (seg_shown c l), seg_heard, !seg_shown, after_spec. reflexivity. Qed.
  Lemma seg_nil : forall l, seg_log (ChNil V) l = heard l.
  Proof. intro l. now rewrite seg_shown. Qed.
  Lemma heard_log : forall c l, heard (seg_log c l) = seg_log c l.
  Proof. intros c l. rewrite seg_shown. rewrite <- seg_nil, seg_heard. apply seg_nil. Qed.
  Lemma result_log : forall segs l, result segs l = seg_log (whole segs) l.
  Proof. intros. now rewrite seg_shown. Qed.
  Lemma whole_app : forall a b l, seg_log (whole (a ++ b)) l = seg_log (whole b) (seg_log (whole a) l).
  Proof.
    induction a as [|c a IH]; intros b l; cbn [app whole].
    - now rewrite seg_nil, seg_heard.
    - rewrite !after_log. apply IH.
  Qed.
  Lemma arrives_0 : forall segs l, arrives segs 0 l = heard l.
  Proof. intros. unfold arrives. now rewrite result_log, <- seg_nil. Qed.
  Lemma arrives_S : forall (segs : list (chain V V)) i l, i < length segs -> arrives segs (S i) l = seg_log (nth i segs (ChNil V)) (arrives segs i l).
  Proof.
    intros segs i l H. unfold arrives. rewrite !result_log.
    assert (E : firstn (S i) segs = firstn i segs ++ [nth i segs (ChNil V)]).
    { revert i H. induction segs as [|c segs IH]; intros [|i] H; cbn in *; try lia; auto. f_equal. apply IH. lia. }
    rewrite E, whole_app. cbn [whole]. rewrite after_log, seg_nil. apply heard_log.
  Qed.
  Lemma arrives_all : forall (segs : list (chain V V)) l, arrives segs (length segs) l = result segs l.
  Proof. intros. unfold arrives. now rewrite firstn_all. Qed.
  Lemma seg_ends : forall c l a e b, seg_log c l = a ++ e :: b -> is_term e = true -> b = [].
  Proof.
    intros c l a e b E T. rewrite seg_shown in E. unfold heard in E. revert E. generalize (vals (chain_spec c l)). intro vs. revert vs.
    induction a as [|x a IH]; intros [|v vs] E; cbn [map app] in E.
    - unfold term_list in E. destruct (term (chain_spec c l)) as [[w|y|]|]; try discriminate; now injection E as _ <-.
    - injection E as <- _. discriminate.
    - unfold term_list in E. destruct (term (chain_spec c l)) as [[w|y|]|]; try discriminate; injection E as _ E; destruct a; discriminate.
    - injection E as _ E. eauto.
  Qed.
End Seg.

(** ** Tasks *)
Section Run.
  Context {V : Type} (D : machine V) (segs : list (chain V V)) (hops : nat -> hop) (src0 : list (ev V)) (d0 : mst D).
  Hypothesis LD : lawful D.
  Notation n := (last_seg segs).
  Notation st := (pst D).
  Notation shown := DelaySpec.shown.
  Notation step := (pstep D segs hops).

  Definition tokp (i : nat) (x : pitem) : bool :=
    match x with PSched j _ | PTask j _ | PDrain j | PEmit j | PFlush j => j =? i | PSrc => 0 =? i | PBack => n =? i | _ => false end.
  Definition emitp (i : nat) (x : pitem) : bool := match x with PEmit j => j =? i | _ => false end.
  Definition flushp (i : nat) (x : pitem) : bool := match x with PFlush j => j =? i | PBack => n =? i | _ => false end.
  Definition pc (i : nat) (s : st) : nat := count (fun x : nat * nat => fst x =? i) (p_pend s).
  Definition timed (i t : nat) (s : st) (l : list pitem) : Prop := In (PSched i t) l \/ In (PTask i t) l \/ In (i, t) (p_pend s).
  Record invT (s : st) (l : list pitem) : Prop := IT {
    t_tok : forall i, count (tokp i) l + pc i s <= if p_act s i then 1 else 0;
    t_live : dead s = false -> forall i, 1 <= i <= n -> p_act s i = true -> count (tokp i) l + pc i s = 1;
    t_cur : forall i, count (emitp i) l = 0 -> p_cur s i = [];
    t_out : forall i, count (flushp i) l = 0 -> p_out s i = [];
    t_idle : forall i, p_act s i = false -> p_q s i = [];
    t_time : forall i t, timed i t s l -> exists e r, p_q s i = (e, t) :: r;
    t_src : count (tokp 0) l = 0 -> p_src s = [];
    t_zero : forall i t, timed i t s l \/ In (PDrain i) l -> i <> 0;
    t_where : forall i t, In (i, t) (p_pend s) -> h_where (hops i) <> None }.

  Lemma invT_perm : forall s l l', Permutation l l' -> invT s l -> invT s l'.
  Proof.
    intros s l l' P [A B C E F G H I J]. assert (X : forall x, In x l' -> In x l) by (intros x K; eapply Permutation_in; [symmetry|]; eauto).
    assert (CN : forall f, count f l' = count f l) by (intro f; apply count_perm; now symmetry).
    constructor; auto; try (intros; rewrite CN in *; auto; fail).
    - intros i t T. apply G. unfold timed in *. intuition.
    - intros i t T. apply (I i t). unfold timed in *. intuition.
  Qed.
  Lemma dead_step : forall s it s' its ls, step s it = Some (s', its, ls) -> dead s = true -> dead s' = true.
  Proof.
    intros s it s' its ls ST DS. unfold dead in *. destruct it; cbn [pstep] in ST; unfold to_worker, dead in ST.
    - destruct (p_src s); injection ST as <- <- <-; auto.
    - destruct (p_q s i) as [|[e t] r]; [injection ST as <- <- <-; auto|]. destruct (t <=? p_now s); [injection ST as <- <- <-; auto|]. destruct (h_where (hops i)); injection ST as <- <- <-; auto.
    - rewrite DS in ST. injection ST as <- <- <-. auto.
    - rewrite DS in ST. destruct (p_out s i) as [|e r]; [injection ST as <- <- <-; auto|]. destruct (i =? n); injection ST as <- <- <-; auto.
    - injection ST as <- <- <-. auto.
    - destruct (h_where (hops i)); injection ST as <- <- <-; auto.
    - rewrite DS in ST. injection ST as <- <- <-. auto.
    - destruct (pick hops w (p_pend s)) as [[[i t] r]|]; [|discriminate]. injection ST as <- <- <-. auto.
    - injection ST as <- <- <-. auto.
    - injection ST as <- <- <-. cbn. apply (law_kill _ LD).
  Qed.
  Lemma pick_some : forall w l i t r, pick hops w l = Some ((i, t), r) -> Permutation l ((i, t) :: r) /\ on_worker hops w i = true.
  Proof.
    intros w. induction l as [|x l IH]; intros i t r E; cbn [pick] in E; [discriminate|]. destruct (on_worker hops w (fst x)) eqn:Q.
    - injection E as -> <-. auto.
    - destruct (pick hops w l) as [[y r']|]; [|discriminate]. injection E as -> <-. destruct (IH i t r' eq_refl) as (P & O). split; auto. rewrite P. apply perm_swap.
  Qed.
  Lemma pick_none : forall w l i t, pick hops w l = None -> In (i, t) l -> h_where (hops i) <> Some w.
  Proof.
    intros w. induction l as [|x l IH]; intros i t E I; [easy|]. cbn [pick] in E. destruct (on_worker hops w (fst x)) eqn:Q; [discriminate|]. destruct (pick hops w l) as [[y r']|] eqn:K; [discriminate|].
    destruct I as [->|I]; eauto. intro H. cbn in Q. unfold on_worker in Q. rewrite H, Nat.eqb_refl in Q. discriminate.
  Qed.

  Ltac fs := cbn [p_src p_hist p_cur p_out p_q p_fin p_act p_pend p_now p_d set_cur set_out set_pend] in *.
  Ltac ct := rewrite ?count_app, ?count_cons, ?count_nil in *; cbn [tokp emitp flushp next_of app] in *.
  Ltac eqs := repeat match goal with |- context [?a =? ?b] => destruct (Nat.eqb_spec a b); subst | H : context [?a =? ?b] |- _ => destruct (Nat.eqb_spec a b); subst end.
  Lemma count_nil0 : forall A (f : A -> bool), count f [] = 0.
  Proof. reflexivity. Qed.

  Lemma tok_next : forall i k, tokp k (next_of i) = (i =? k).
  Proof. intros [|i] k; reflexivity. Qed.
  Lemma emit_next : forall i k, emitp k (next_of i) = false.
  Proof. intros [|i] k; reflexivity. Qed.
  Lemma flush_next : forall i k, flushp k (next_of i) = false.
  Proof. intros [|i] k; reflexivity. Qed.
  Lemma timed_count : forall i t s l, timed i t s l -> 1 <= count (tokp i) l + pc i s.
  Proof.
    intros i t s l [X|[X|X]].
    - pose proof (count_in (tokp i) l _ X (Nat.eqb_refl i)). lia.
    - pose proof (count_in (tokp i) l _ X (Nat.eqb_refl i)). lia.
    - pose proof (count_in (fun x : nat * nat => fst x =? i) _ _ X (Nat.eqb_refl i)) as Z. unfold pc. lia.
  Qed.
  Ltac tm := solve [unfold timed in *; cbn [In app] in *; fs; intuition (try discriminate; try congruence)].
  Ltac d1 A := let k := fresh "k" in intro k; specialize (A k); ct; lia.
  Ltac d2 B := let X := fresh "X" in let k := fresh "k" in let L := fresh "L" in let Y := fresh "Y" in intros X k L Y; specialize (B X k L Y); ct; lia.
  Ltac d3 C := let k := fresh "k" in let X := fresh "X" in intros k X; apply C; ct; first [assumption|lia].
  Ltac d4 E := let k := fresh "k" in let X := fresh "X" in intros k X; apply E; ct; first [assumption|lia].
  Ltac d5 F := exact F.
  Ltac d6 G := let k := fresh "k" in let t := fresh "t" in let T := fresh "T" in intros k t T; apply G; tm.
  Ltac d7 H := let X := fresh "X" in intro X; apply H; ct; lia.
  Ltac d8 I := let k := fresh "k" in let t := fresh "t" in let T := fresh "T" in intros k t T; apply (I k t); tm.
  Ltac d9 J := exact J.
  Lemma invT_step : forall s it l s' its ls, invT s (it :: l) -> step s it = Some (s', its, ls) -> invT s' (its ++ l).
  Proof.
    intros s it l s' its ls [A B C E F G H I J] ST.
    assert (DM : dead s' = false -> dead s = false) by (intro X; destruct (dead s) eqn:Q; auto; rewrite (dead_step _ _ _ _ _ ST Q) in X; discriminate).
    destruct it; cbn [pstep] in ST; unfold to_worker in ST.
    - (* PSrc *) destruct (p_src s) as [|e r] eqn:Q; injection ST as <- <- <-.
      +
        constructor; fs; unfold pc in *; fs.
        1: { d1 A. }
        1: { intros X k L Y. specialize (B X k L Y). ct. destruct k; [lia|]. cbn [Nat.eqb] in B. lia. }
        1: { d3 C. }
        1: { d4 E. }
        1: { d5 F. }
        1: { d6 G. }
        1: { intros _. exact Q. }
        1: { d8 I. }
        1: { d9 J. }
      +
        constructor; fs; unfold pc in *; fs.
        1: { d1 A. }
        1: { d2 B. }
        1: { intros k X. ct. unfold upd. eqs; try lia; apply C; ct; eqs; try lia; congruence. }
        1: { d4 E. }
        1: { intros k X. unfold upd. eqs; auto. }
        1: { intros k t T. unfold upd. destruct (G k t) as (e1 & r1 & Y); [tm|]. eqs; eauto. }
        1: { intro X. ct. discriminate. }
        1: { d8 I. }
        1: { d9 J. }
    - (* PDrain *) destruct (p_q s i) as [|[e t] r] eqn:Q; [|destruct (Nat.leb_spec t (p_now s))].
      + injection ST as <- <- <-.
        constructor; fs; unfold pc in *; fs.
        1: { intro k. specialize (A k). ct. unfold upd. destruct (p_act s k); eqs; try lia; congruence. }
        1: { intros X k L Y. unfold upd in Y. destruct (Nat.eqb_spec k i); [discriminate|]. specialize (B X k L Y). ct. eqs; try lia; congruence. }
        1: { d3 C. }
        1: { d4 E. }
        1: { intros k X. unfold upd in X. destruct (Nat.eqb_spec k i); [now subst|auto]. }
        1: { d6 G. }
        1: { intro X. apply H. ct. destruct (Nat.eqb_spec i 0) as [->|]; [|lia]. exfalso. apply (I 0 0); auto. right. now left. }
        1: { d8 I. }
        1: { d9 J. }
      + injection ST as <- <- <-.
        constructor; fs; unfold pc in *; fs.
        1: { d1 A. }
        1: { d2 B. }
        1: { intros k X. ct. unfold upd. eqs; try lia; apply C; ct; eqs; try lia; congruence. }
        1: { d4 E. }
        1: { intros k X. unfold upd. destruct (Nat.eqb_spec k i); auto. subst. specialize (F _ X). congruence. }
        1: { intros k t' T. unfold upd. destruct (Nat.eqb_spec k i).
          - subst. exfalso. assert (T' : timed i t' s l) by tm. pose proof (timed_count _ _ _ _ T'). specialize (A i). ct. rewrite Nat.eqb_refl in A. unfold pc in *. destruct (p_act s i); lia.
          - apply G. tm. }
        1: { d7 H. }
        1: { d8 I. }
        1: { d9 J. }
      + destruct (h_where (hops i)) as [w|] eqn:W; injection ST as <- <- <-.
        *
          constructor; fs; unfold pc in *; fs.
          1: { intro k. specialize (A k). ct. cbn [fst]. lia. }
          1: { intros X k L Y. specialize (B X k L Y). ct. cbn [fst]. lia. }
          1: { d3 C. }
          1: { d4 E. }
          1: { d5 F. }
          1: { intros k t' T. unfold timed in T. fs. cbn [app] in T. rewrite in_app_iff in T. cbn [In] in T. destruct T as [T|[T|[T|[T|[]]]]]; [apply G; tm..|]. all: (injection T as <- <-; eauto). }
          1: { intro X. apply H. ct. destruct (Nat.eqb_spec i 0) as [->|]; [|lia]. exfalso. apply (I 0 0); auto. right. now left. }
          1: { intros k t' T. unfold timed in T. fs. cbn [app] in T. rewrite in_app_iff in T. cbn [In] in T. destruct T as [[T|[T|[T|[T|[]]]]]|T]; try (apply (I k t'); tm). all: (injection T as <- <-; apply (I i 0); right; now left). }
          1: { intros k t' T. rewrite in_app_iff in T. destruct T as [T|[T|[]]]; [eauto|]. injection T as <- <-. congruence. }
        *
          constructor; fs; unfold pc in *; fs.
          1: { d1 A. }
          1: { d2 B. }
          1: { d3 C. }
          1: { d4 E. }
          1: { d5 F. }
          1: { intros k t' T. unfold timed in T. cbn [In app] in T. destruct T as [T|[[T|T]|T]]; try (apply G; tm). all: (injection T as <- <-; eauto). }
          1: { d7 H. }
          1: { intros k t' T. unfold timed in T. cbn [In app] in T. destruct T as [[T|[[T|T]|T]]|[T|T]]; try discriminate; try (apply (I k t'); tm). all: (injection T as <- <-; apply (I i 0); right; now left). }
          1: { d9 J. }
    - (* PEmit *) destruct (dead s) eqn:DS; injection ST as <- <- <-.
      +
        constructor; fs; unfold pc in *; fs.
        1: { intro k. specialize (A k). rewrite count_app, count_cons, tok_next, count_nil0. ct. lia. }
        1: { intro X. specialize (DM X). congruence. }
        1: { intros k X. rewrite count_app, count_cons, emit_next, count_nil0 in X. unfold upd. eqs; auto; apply C; ct; eqs; try lia; congruence. }
        1: { intros k X. rewrite count_app, count_cons, flush_next, count_nil0 in X. apply E. ct. lia. }
        1: { intros k X. unfold upd. eqs; auto. }
        1: { intros k t T. unfold upd. destruct (G k t) as (e1 & r1 & Y); [destruct i; tm|]. eqs; eauto. }
        1: { intro X. rewrite count_app, count_cons, tok_next, count_nil0 in X. apply H. ct. lia. }
        1: { intros k t T. destruct i as [|i]; cbn [next_of] in T; [apply (I k t); tm|]. unfold timed in T; cbn [In app] in T. destruct T as [[T|[T|T]]|[T|T]]; try (apply (I k t); tm). injection T as <-. discriminate. }
        1: { d9 J. }
      +
        constructor; fs; unfold pc in *; fs.
        1: { d1 A. }
        1: { intros X k L Y. specialize (B eq_refl k L Y). ct. lia. }
        1: { intros k X. ct. unfold upd. eqs; auto; apply C; ct; eqs; try lia; congruence. }
        1: { intros k X. ct. unfold upd. eqs; try lia; apply E; ct; eqs; try lia; congruence. }
        1: { d5 F. }
        1: { d6 G. }
        1: { d7 H. }
        1: { d8 I. }
        1: { d9 J. }
    - (* PFlush *) destruct (p_out s i) as [|e r] eqn:Q.
      + injection ST as <- <- <-.
        constructor; fs; unfold pc in *; fs.
        1: { intro k. specialize (A k). rewrite count_app, count_cons, tok_next, count_nil0. ct. lia. }
        1: { intros X k L Y. specialize (B X k L Y). rewrite count_app, count_cons, tok_next, count_nil0. ct. lia. }
        1: { intros k X. rewrite count_app, count_cons, emit_next, count_nil0 in X. apply C. ct. lia. }
        1: { intros k X. rewrite count_app, count_cons, flush_next, count_nil0 in X. destruct (Nat.eq_dec k i) as [->|N]; auto. apply E. ct. eqs; try lia; congruence. }
        1: { d5 F. }
        1: { intros k t T. apply G. destruct i; tm. }
        1: { intro X. rewrite count_app, count_cons, tok_next, count_nil0 in X. apply H. ct. lia. }
        1: { intros k t T. destruct i as [|i]; cbn [next_of] in T; [apply (I k t); tm|]. unfold timed in T; cbn [In app] in T. destruct T as [[T|[T|T]]|[T|T]]; try (apply (I k t); tm). injection T as <-. discriminate. }
        1: { d9 J. }
      + assert (SKIP : invT (set_out D s i r) ([PFlush i] ++ l)).
        {
          constructor; fs; unfold pc in *; fs.
          1: { d1 A. }
          1: { d2 B. }
          1: { d3 C. }
          1: { intros k X. ct. unfold upd. eqs; try lia; apply E; ct; eqs; try lia; congruence. }
          1: { d5 F. }
          1: { d6 G. }
          1: { d7 H. }
          1: { d8 I. }
          1: { d9 J. }
        }
        destruct (Nat.eqb_spec i n) as [EN|EN].
        * destruct (dead s) eqn:DS; [injection ST as <- <- <-; exact SKIP|]. injection ST as <- <- <-. subst i. clear SKIP.
          constructor; fs; unfold pc in *; fs.
          1: { d1 A. }
          1: { intros X k L Y; specialize (B eq_refl k L Y); ct; lia. }
          1: { d3 C. }
          1: { intros k X. ct. unfold upd. eqs; try lia; apply E; ct; eqs; try lia; congruence. }
          1: { d5 F. }
          1: { d6 G. }
          1: { d7 H. }
          1: { d8 I. }
          1: { d9 J. }
        * destruct (dead s || p_fin s (S i)) eqn:DS; [injection ST as <- <- <-; exact SKIP|]. clear SKIP.
          assert (PUT : forall t, t = p_now s + h_delay (hops (S i)) ->
            invT (PS (p_src s) (p_hist s) (p_cur s) (upd i r (p_out s)) (upd (S i) (p_q s (S i) ++ [(e, t)]) (p_q s))
                                (upd (S i) (is_term e) (p_fin s)) (upd (S i) true (p_act s)) (p_pend s) (p_now s) (p_d s))
                 (((if p_act s (S i) then [] else [PSched (S i) t]) ++ [PFlush i]) ++ l)).
          { intros t TE. clear ST TE DM.
            constructor; fs; unfold pc in *; fs.
            1: { intro k. specialize (A k). unfold upd. destruct (p_act s (S i)) eqn:AC; ct; destruct (Nat.eqb_spec k (S i)); subst; rewrite ?Nat.eqb_refl, ?AC in *; eqs; try lia; congruence. }
            1: { intros X k L Y. unfold upd in Y. assert (X' : dead s = false) by (destruct (dead s); [discriminate DS|reflexivity]). pose proof (A k) as A'. specialize (B X' k L). destruct (p_act s (S i)) eqn:AC; ct; destruct (Nat.eqb_spec k (S i)); subst; rewrite ?Nat.eqb_refl, ?AC in *; try specialize (B eq_refl); try specialize (B Y); eqs; try lia; congruence. }
            1: { intros k X. apply C. destruct (p_act s (S i)); ct; lia. }
            1: { intros k X. unfold upd. destruct (p_act s (S i)); ct; eqs; try lia; apply E; ct; eqs; try lia; congruence. }
            1: { intros k X. unfold upd in *. destruct (Nat.eqb_spec k (S i)); [discriminate|auto]. }
            1: { intros k t' T. unfold upd. assert (T' : timed k t' s (PFlush i :: l) \/ (p_act s (S i) = false /\ k = S i /\ t' = t)).
              { destruct (p_act s (S i)); [left; tm|]. unfold timed in T. cbn [In app] in T. fs. destruct T as [[T|T]|T]; [injection T as <- <-; auto|left; tm|left; tm]. }
              destruct T' as [T'|(AC & -> & ->)].
              + destruct (G _ _ T') as (e1 & r1 & Y). destruct (Nat.eqb_spec k (S i)); [subst; rewrite Y; cbn; eauto|eauto].
              + rewrite Nat.eqb_refl, (F _ AC). cbn. eauto. }
            1: { intro X. apply H. destruct (p_act s (S i)); ct; lia. }
            1: { intros k t' T. destruct (Nat.eq_dec k (S i)) as [->|NK]; [discriminate|]. apply (I k t'). destruct (p_act s (S i)); tm. }
            1: { d9 J. }
          }
          destruct e as [v|x|], (h_clear (hops (S i))); try discriminate; injection ST as <- <- <-; apply PUT; reflexivity.
    - (* PBack *) injection ST as <- <- <-.
      constructor; fs; unfold pc in *; fs.
      1: { d1 A. }
      1: { d2 B. }
      1: { d3 C. }
      1: { d4 E. }
      1: { d5 F. }
      1: { d6 G. }
      1: { d7 H. }
      1: { d8 I. }
      1: { d9 J. }
    - (* PSched *) assert (Q : exists e r, p_q s i = (e, t) :: r) by (apply G; left; now left). assert (NZ : i <> 0) by (apply (I i t); left; left; now left). destruct (h_where (hops i)) as [w|] eqn:W; injection ST as <- <- <-.
      +
        constructor; fs; unfold pc in *; fs.
        1: { intro k. specialize (A k). ct. cbn [fst]. lia. }
        1: { intros X k L Y. specialize (B X k L Y). ct. cbn [fst]. lia. }
        1: { d3 C. }
        1: { d4 E. }
        1: { d5 F. }
        1: { intros k t' T. unfold timed in T. fs. cbn [app] in T. rewrite in_app_iff in T. cbn [In] in T. destruct T as [T|[T|[T|[T|[]]]]]; [apply G; tm..|]. all: (injection T as <- <-; eauto). }
        1: { intro X. apply H. ct. destruct (Nat.eqb_spec i 0); [contradiction|lia]. }
        1: { intros k t' T. unfold timed in T. fs. cbn [app] in T. rewrite in_app_iff in T. cbn [In] in T. destruct T as [[T|[T|[T|[T|[]]]]]|T]; try (apply (I k t'); tm). all: (injection T as <- <-; exact NZ). }
        1: { intros k t' T. rewrite in_app_iff in T. destruct T as [T|[T|[]]]; [eauto|]. injection T as <- <-. congruence. }
      +
        constructor; fs; unfold pc in *; fs.
        1: { d1 A. }
        1: { d2 B. }
        1: { d3 C. }
        1: { d4 E. }
        1: { d5 F. }
        1: { intros k t' T. unfold timed in T. cbn [In app] in T. destruct T as [T|[[T|T]|T]]; try (apply G; tm). all: (injection T as <- <-; eauto). }
        1: { d7 H. }
        1: { intros k t' T. unfold timed in T. cbn [In app] in T. destruct T as [[T|[[T|T]|T]]|[T|T]]; try discriminate; try (apply (I k t'); tm). all: (injection T as <- <-; exact NZ). }
        1: { d9 J. }
    - (* PTask *) assert (NZ : i <> 0) by (apply (I i t); left; right; left; now left). destruct (dead s) eqn:DS; [|destruct (t <=? p_now s); [|discriminate]]; injection ST as <- <- <-.
      +
        constructor; fs; unfold pc in *; fs.
        1: { d1 A. }
        1: { intro X; congruence. }
        1: { d3 C. }
        1: { d4 E. }
        1: { d5 F. }
        1: { d6 G. }
        1: { intro X. apply H. ct. destruct (Nat.eqb_spec i 0); [contradiction|lia]. }
        1: { d8 I. }
        1: { d9 J. }
      +
        constructor; fs; unfold pc in *; fs.
        1: { d1 A. }
        1: { intros X k L Y. specialize (B eq_refl k L Y). ct. lia. }
        1: { d3 C. }
        1: { d4 E. }
        1: { d5 F. }
        1: { d6 G. }
        1: { d7 H. }
        1: { intros k t' T. destruct (Nat.eq_dec k i) as [->|N]; auto. apply (I k t'). tm. }
        1: { d9 J. }
    - (* PWork *) destruct (pick hops w (p_pend s)) as [[[i t] r]|] eqn:Q; [|discriminate]. injection ST as <- <- <-. destruct (pick_some _ _ _ _ _ Q) as (P & O).
      assert (PC : forall k, count (fun x : nat * nat => fst x =? k) (p_pend s) = count (fun x : nat * nat => fst x =? k) ((i, t) :: r)) by (intro k; now apply count_perm).
      assert (PI : forall x, In x ((i, t) :: r) -> In x (p_pend s)) by (intros x Y; eapply Permutation_in; [symmetry|]; eauto).
      constructor; fs; unfold pc in *; fs.
      1: { intro k. specialize (A k). rewrite PC in A. ct. cbn [fst] in *. lia. }
      1: { intros X k L Y. specialize (B X k L Y). rewrite PC in B. ct. cbn [fst] in *. lia. }
      1: { d3 C. }
      1: { d4 E. }
      1: { d5 F. }
      1: { intros k t' T. apply G. unfold timed in *. cbn [In app] in *. fs. destruct T as [[T|[T|T]]|[[T|[T|T]]|T]]; try discriminate; auto. injection T as <- <-. right. right. apply PI. now left. }
      1: { d7 H. }
      1: { intros k t' T. apply (I k t'). unfold timed in *. cbn [In app] in *. fs. destruct T as [[[T|[T|T]]|[[T|[T|T]]|T]]|[T|[T|T]]]; try discriminate; auto 8. injection T as <- <-. left. right. right. apply PI. now left. }
      1: { intros k t' T. apply (J k t'). apply PI. now right. }
    - (* PClock *) injection ST as <- <- <-.
      constructor; fs; unfold pc in *; fs.
      1: { d1 A. }
      1: { d2 B. }
      1: { d3 C. }
      1: { d4 E. }
      1: { d5 F. }
      1: { d6 G. }
      1: { d7 H. }
      1: { d8 I. }
      1: { d9 J. }
    - (* PKill *) injection ST as <- <- <-.
      constructor; fs; unfold pc in *; fs.
      1: { d1 A. }
      1: { intros X k L Y; specialize (B (DM X) k L Y); ct; lia. }
      1: { d3 C. }
      1: { d4 E. }
      1: { d5 F. }
      1: { d6 G. }
      1: { d7 H. }
      1: { d8 I. }
      1: { d9 J. }
  Qed.

  (** ** Nothing is lost on the way *)
  Record invF (s : st) (tr : list (dlab V)) : Prop := IF {
    f_src : p_hist s 0 ++ p_cur s 0 ++ p_src s = src0;
    f_mid : forall i, i < n -> p_hist s (S i) ++ p_cur s (S i) ++ map fst (p_q s (S i)) ++ p_out s i = seg_log (seg segs i) (p_hist s i);
    f_last : map fst (shown tr) ++ p_out s n = seg_log (seg segs n) (p_hist s n);
    f_fin : forall i, i < n -> p_fin s (S i) = existsb is_term (p_hist s (S i) ++ p_cur s (S i) ++ map fst (p_q s (S i))) }.

  Lemma flush_tok : forall i l, count (flushp i) l <= count (tokp i) l.
  Proof. intros i. induction l as [|x l IH]; [auto|]. rewrite !count_cons. destruct x; cbn [flushp tokp]; lia. Qed.
  Lemma emit_tok : forall i l, count (emitp i) l <= count (tokp i) l.
  Proof. intros i. induction l as [|x l IH]; [auto|]. rewrite !count_cons. destruct x; cbn [emitp tokp]; lia. Qed.
  Lemma own_tok : forall s it l i, invT s (it :: l) -> tokp i it = true -> count (tokp i) l = 0.
  Proof. intros s it l i T H. pose proof (t_tok _ _ T i) as A. rewrite count_cons, H in A. destruct (p_act s i); lia. Qed.
  Lemma own_out : forall s it l i, invT s (it :: l) -> tokp i it = true -> flushp i it = false -> p_out s i = [].
  Proof. intros s it l i T H F. apply (t_out _ _ T). rewrite count_cons, F. pose proof (own_tok _ _ _ _ T H). pose proof (flush_tok i l). lia. Qed.
  Lemma own_cur : forall s it l i, invT s (it :: l) -> tokp i it = true -> emitp i it = false -> p_cur s i = [].
  Proof. intros s it l i T H F. apply (t_cur _ _ T). rewrite count_cons, F. pose proof (own_tok _ _ _ _ T H). pose proof (emit_tok i l). lia. Qed.

  Lemma upd_same : forall X i (v : X) f, upd i v f i = v.
  Proof. intros. unfold upd. now rewrite Nat.eqb_refl. Qed.
  Lemma upd_other : forall X i k (v : X) f, k <> i -> upd i v f k = f k.
  Proof. intros X i k v f N. unfold upd. destruct (Nat.eqb_spec k i); [contradiction|auto]. Qed.
  Lemma upd_id : forall X i (f : nat -> X) k, upd i (f i) f k = f k.
  Proof. intros. unfold upd. destruct (Nat.eqb_spec k i); [now subst|auto]. Qed.

  Lemma invF_step : forall s it l s' its ls tr, invT s (it :: l) -> (dead s = false -> invF s tr) -> step s it = Some (s', its, ls) ->
    dead s' = false -> invF s' (tr ++ ls).
  Proof.
    intros s it l s' its ls tr T IFs ST DS'.
    assert (DS : dead s = false) by (destruct (dead s) eqn:Q; auto; rewrite (dead_step _ _ _ _ _ ST Q) in DS'; discriminate).
    specialize (IFs DS). destruct IFs as [A B C E].
    assert (SAME : forall x, shown ls = [] -> map fst (shown (tr ++ ls)) ++ x = map fst (shown tr) ++ x) by (intros x Z; rewrite shown_app, Z, app_nil_r; auto).
    destruct it; cbn [pstep] in ST; unfold to_worker in ST.
    - destruct (p_src s) as [|e r] eqn:Q; injection ST as <- <- <-.
      + constructor; [rewrite Q| |rewrite SAME by reflexivity|]; auto.
      + pose proof (own_cur _ _ _ 0 T eq_refl eq_refl) as CU. rewrite CU in *. constructor; fs.
        * rewrite upd_same. cbn [app] in *. exact A.
        * intros i L. rewrite upd_id, upd_other by lia. auto.
        * rewrite SAME by reflexivity. auto.
        * intros i L. rewrite upd_id, upd_other by lia. auto.
    - destruct (p_q s i) as [|[e t] r] eqn:Q; [|destruct (t <=? p_now s)].
      + injection ST as <- <- <-. constructor; fs; auto. rewrite SAME by reflexivity. auto.
      + injection ST as <- <- <-. assert (NZ : i <> 0) by (apply (t_zero _ _ T i 0); right; now left).
        pose proof (own_cur _ _ _ i T (Nat.eqb_refl i) eq_refl) as CU. constructor; fs.
        * rewrite upd_other by auto. auto.
        * intros k L. specialize (B k L). destruct (Nat.eq_dec (S k) i) as [<-|N]; [|rewrite !upd_other by auto; auto]. rewrite !upd_same. rewrite CU, Q in B. cbn [map fst app] in *. exact B.
        * rewrite SAME by reflexivity. auto.
        * intros k L. specialize (E k L). destruct (Nat.eq_dec (S k) i) as [<-|N]; [|rewrite !upd_other by auto; auto]. rewrite !upd_same. rewrite CU, Q in E. cbn [map fst app] in *. exact E.
      + destruct (h_where (hops i)); injection ST as <- <- <-; constructor; fs; auto; rewrite SAME by reflexivity; auto.
    - rewrite DS in ST. injection ST as <- <- <-. pose proof (own_out _ _ _ i T (Nat.eqb_refl i) eq_refl) as OU. constructor; fs.
      + destruct (Nat.eq_dec 0 i) as [<-|N]; [|rewrite !upd_other by auto; auto]. rewrite !upd_same. rewrite <- app_assoc. exact A.
      + intros k L. specialize (B k L). assert (H1 : upd i (p_hist s i ++ p_cur s i) (p_hist s) (S k) ++ upd i [] (p_cur s) (S k) = p_hist s (S k) ++ p_cur s (S k)).
        { destruct (Nat.eq_dec (S k) i) as [<-|N]; [|now rewrite !upd_other by auto]. rewrite !upd_same. now rewrite app_nil_r. }
        rewrite app_assoc, H1, <- app_assoc. destruct (Nat.eq_dec k i) as [->|N]; [|rewrite !upd_other by auto; auto].
        rewrite !upd_same. rewrite OU, app_nil_r in B. etransitivity; [|symmetry; apply seg_more]. rewrite <- B. rewrite <- !app_assoc. auto.
      + rewrite SAME by reflexivity. destruct (Nat.eq_dec n i) as [<-|N]; [|rewrite !upd_other by auto; auto]. rewrite !upd_same. rewrite OU, app_nil_r in C. etransitivity; [|symmetry; apply seg_more]. rewrite <- C. auto.
      + intros k L. rewrite (E k L). f_equal. destruct (Nat.eq_dec (S k) i) as [<-|N]; [|now rewrite !upd_other by auto]. rewrite !upd_same. now rewrite <- app_assoc.
    - destruct (p_out s i) as [|e r] eqn:Q.
      + injection ST as <- <- <-. constructor; auto. rewrite SAME by reflexivity. auto.
      + destruct (Nat.eqb_spec i n) as [EN|EN].
        * rewrite DS in ST. injection ST as <- <- <-. subst i. constructor; fs; auto.
          -- intros k L. rewrite upd_other by lia. auto.
          -- rewrite upd_same, shown_app, map_app, <- app_assoc. cbn. rewrite Q in C. exact C.
        * assert (FI : i < n -> p_fin s (S i) = false).
          { intro L. specialize (B i L). specialize (E i L). destruct (p_fin s (S i)); auto. exfalso. symmetry in E. apply existsb_exists in E as (x & I & TX). apply in_split in I as (a & b & I).
            rewrite Q in B. rewrite !app_assoc in B. rewrite !app_assoc in I. rewrite I in B. rewrite <- !app_assoc in B. cbn [app] in B. symmetry in B. apply seg_ends in B; auto. destruct b; discriminate. }
          assert (PUT : forall t q, t = p_now s + h_delay (hops (S i)) -> q = PS (p_src s) (p_hist s) (p_cur s) (upd i r (p_out s)) (upd (S i) (p_q s (S i) ++ [(e, t)]) (p_q s))
                                (upd (S i) (is_term e) (p_fin s)) (upd (S i) true (p_act s)) (p_pend s) (p_now s) (p_d s) -> ls = [] -> i < n -> invF q (tr ++ ls)).
          { intros t q _ -> -> L. constructor; fs; auto.
            - intros k Lk. specialize (B k Lk). destruct (Nat.eq_dec k i) as [->|N].
              + rewrite !upd_same, map_app, <- app_assoc. rewrite Q in B. cbn [map fst app]. exact B.
              + rewrite !upd_other by lia. auto.
            - rewrite SAME by reflexivity. rewrite upd_other by auto. auto.
            - intros k Lk. specialize (E k Lk). destruct (Nat.eq_dec k i) as [->|N].
              + rewrite !upd_same, map_app. rewrite (FI L) in E. cbn [map fst]. rewrite !app_assoc, existsb_app, <- !app_assoc, <- E. cbn. now rewrite orb_false_r.
              + rewrite !upd_other by lia. auto. }
          destruct (le_lt_dec n i) as [L|L].
          -- assert (G : (forall k, k <= n -> p_out s' k = p_out s k) /\ (forall k, k <= n -> p_q s' k = p_q s k) /\ (forall k, k <= n -> p_fin s' k = p_fin s k) /\ p_hist s' = p_hist s /\ p_cur s' = p_cur s /\ p_src s' = p_src s /\ ls = []).
             { clear PUT DS'. destruct (dead s || p_fin s (S i)); [|destruct e as [v|x|], (h_clear (hops (S i))); try discriminate]; injection ST as <- <- <-; fs; repeat split; intros; rewrite ?upd_other by lia; reflexivity. }
             destruct G as (O1 & O2 & O3 & O4 & O5 & O6 & ->). constructor; rewrite ?O4, ?O5, ?O6; auto.
             ++ intros k Lk. rewrite O1, O2 by lia. auto.
             ++ rewrite SAME by reflexivity. rewrite O1 by lia. auto.
             ++ intros k Lk. rewrite O2, O3 by lia. auto.
          -- rewrite DS, (FI L) in ST. cbn [orb] in ST. destruct e as [v|x|], (h_clear (hops (S i))); try discriminate; injection ST as <- <- <-; eapply PUT; eauto.
    - injection ST as <- <- <-. constructor; auto. rewrite SAME by reflexivity. auto.
    - destruct (h_where (hops i)); injection ST as <- <- <-; constructor; fs; auto; rewrite SAME by reflexivity; auto.
    - rewrite DS in ST. destruct (t <=? p_now s); [|discriminate]. injection ST as <- <- <-. constructor; auto. rewrite SAME by reflexivity. auto.
    - destruct (pick hops w (p_pend s)) as [[[i t] r]|] eqn:Q; [|discriminate]. injection ST as <- <- <-. constructor; fs; auto. rewrite SAME by reflexivity. auto.
    - injection ST as <- <- <-. constructor; fs; auto. rewrite SAME by reflexivity. auto.
    - injection ST as <- <- <-. constructor; fs; auto. rewrite SAME by reflexivity. auto.
  Qed.

  (** What has come through so far is a beginning of what comes through in all. *)
  Lemma n_lt : segs <> [] -> n < length segs.
  Proof. intro H. unfold last_seg. destruct segs; [contradiction|cbn; lia]. Qed.
  Lemma prefix_left : forall (a b c : list (ev V)), prefix (a ++ b) c -> prefix a c.
  Proof. intros a b c (r & ->). exists (b ++ r). now rewrite app_assoc. Qed.
  Lemma flow_prefix : segs <> [] -> forall s tr, invF s tr -> forall i, i <= n -> prefix (seg_log (seg segs i) (p_hist s i)) (arrives segs (S i) src0).
  Proof.
    intros NE s tr [A B C E]. induction i as [|i IH]; intro L; rewrite arrives_S by (pose proof (n_lt NE); lia).
    - rewrite arrives_0. unfold seg. rewrite seg_heard. apply seg_prefix. rewrite <- A. eexists. reflexivity.
    - apply seg_prefix. specialize (IH ltac:(lia)). rewrite <- (B i) in IH by lia. eapply prefix_left. exact IH.
  Qed.
  Lemma flow_shown : segs <> [] -> forall s tr, invF s tr -> prefix (map fst (shown tr) ++ p_out s n) (result segs src0).
  Proof.
    intros NE s tr F. rewrite (f_last _ _ F). pose proof (flow_prefix NE _ _ F n (le_n _)) as P. replace (S n) with (length segs) in P by (pose proof (n_lt NE); unfold last_seg in *; lia).
    now rewrite arrives_all in P.
  Qed.

  (** ** The subscriber *)
  Definition backp (x : pitem) : bool := match x with PBack => true | _ => false end.
  Record invD (s : st) (l : list pitem) (tr : list (dlab V)) : Prop := ID {
    d_state : ~ In DKill tr -> p_d s = mrun D d0 (map fst (shown tr));
    d_killed : In DKill tr -> dead s = true;
    d_pre : prefix (map fst (shown tr)) (result segs src0);
    d_serial : serial false tr;
    d_busy : busy false tr = (0 <? count backp l);
    d_stop : stops tr }.
  Lemma invD_perm : forall s l l' tr, Permutation l l' -> invD s l tr -> invD s l' tr.
  Proof. intros s l l' tr P [A B C E F G]. constructor; auto. rewrite F. f_equal. now apply count_perm. Qed.
  Lemma invD_quiet : forall s s' l l' tr, invD s l tr -> p_d s' = p_d s -> count backp l' = count backp l -> invD s' l' (tr ++ []).
  Proof. intros s s' l l' tr [A B C E F G] H K. rewrite app_nil_r. constructor; unfold dead in *; rewrite ?H, ?K; auto. Qed.
  Lemma back_next : forall i, backp (next_of i) = false.
  Proof. intros [|i]; reflexivity. Qed.
  Lemma back_tok : forall l, count backp l <= count (tokp n) l.
  Proof. induction l as [|x l IH]; [auto|]. rewrite !count_cons. destruct x; cbn [backp tokp]; rewrite ?Nat.eqb_refl; lia. Qed.

  Lemma invD_step : segs <> [] -> forall s it l s' its ls tr, invT s (it :: l) -> (dead s = false -> invF s tr) -> invD s (it :: l) tr -> step s it = Some (s', its, ls) -> invD s' (its ++ l) (tr ++ ls).
  Proof.
    intros NE s it l s' its ls tr T IFs ID ST. pose proof ID as [A B C E F G].
    destruct it; cbn [pstep] in ST; unfold to_worker in ST.
    - destruct (p_src s) as [|e r] eqn:Q; injection ST as <- <- <-; eapply invD_quiet; eauto.
    - destruct (p_q s i) as [|[e t] r] eqn:Q; [|destruct (t <=? p_now s); [|destruct (h_where (hops i))]]; injection ST as <- <- <-; eapply invD_quiet; eauto.
    - destruct (dead s); injection ST as <- <- <-; eapply invD_quiet; eauto. rewrite count_app, !count_cons, back_next. cbn. auto.
    - destruct (p_out s i) as [|e r] eqn:Q; [injection ST as <- <- <-; eapply invD_quiet; eauto; rewrite count_app, !count_cons, back_next; cbn; auto|].
      destruct (Nat.eqb_spec i n) as [EN|EN].
      + destruct (dead s) eqn:DS; [injection ST as <- <- <-; eapply invD_quiet; eauto|]. injection ST as <- <- <-. subst i.
        assert (NK : ~ In DKill tr) by (intro K; specialize (B K); congruence).
        assert (Z : count backp (PFlush n :: l) = 0). { pose proof (own_tok _ _ _ n T (Nat.eqb_refl n)). pose proof (back_tok l). rewrite count_cons. cbn [backp]. lia. }
        assert (S0 : map fst (shown (tr ++ [DBeg e (p_now s)])) = map fst (shown tr) ++ [e]) by (rewrite shown_app, map_app; reflexivity).
        constructor; fs.
        * intros _. rewrite S0, mrun_app, <- A by auto. reflexivity.
        * intro K. apply in_app_iff in K as [K|[K|[]]]; [contradiction|discriminate].
        * rewrite S0. pose proof (flow_shown NE _ _ (IFs eq_refl)) as P. rewrite Q in P. change (e :: r) with ([e] ++ r) in P. rewrite app_assoc in P. eapply prefix_left; eauto.
        * apply serial_app. split; auto. cbn. split; auto. rewrite F, Z. reflexivity.
        * rewrite busy_app. reflexivity.
        * apply stops_snoc; auto.
      + destruct (dead s || p_fin s (S i)); [injection ST as <- <- <-; eapply invD_quiet; eauto|].
        destruct e as [v|x|], (h_clear (hops (S i))); try discriminate; injection ST as <- <- <-; eapply invD_quiet; eauto; destruct (p_act s (S i)); reflexivity.
    - injection ST as <- <- <-.
      assert (S0 : map fst (shown (tr ++ [DEnd])) = map fst (shown tr)) by (rewrite shown_app, map_app; apply app_nil_r).
      assert (KK : In DKill (tr ++ [DEnd]) -> In DKill tr) by (intro K; apply in_app_iff in K as [K|[K|[]]]; [auto|discriminate]).
      constructor; rewrite ?S0; auto.
      + intro K. apply A. intro K'. apply K. apply in_app_iff. auto.
      + apply serial_app. split; auto. cbn. auto.
      + rewrite busy_app. cbn [busy app]. assert (Z : count (tokp n) l = 0) by (eapply own_tok; eauto; apply Nat.eqb_refl). pose proof (back_tok l). rewrite count_cons. cbn [backp]. replace (count backp l) with 0 by lia. reflexivity.
      + apply stops_snoc; auto. discriminate.
    - destruct (h_where (hops i)); injection ST as <- <- <-; eapply invD_quiet; eauto.
    - destruct (dead s); [|destruct (t <=? p_now s); [|discriminate]]; injection ST as <- <- <-; eapply invD_quiet; eauto.
    - destruct (pick hops w (p_pend s)) as [[[i t] r]|] eqn:Q; [|discriminate]. injection ST as <- <- <-. eapply invD_quiet; eauto.
    - injection ST as <- <- <-. eapply invD_quiet; eauto.
    - injection ST as <- <- <-.
      assert (S0 : map fst (shown (tr ++ [DKill])) = map fst (shown tr)) by (rewrite shown_app, map_app; apply app_nil_r).
      constructor; rewrite ?S0; auto.
      + intro K. exfalso. apply K. apply in_app_iff. right. now left.
      + intros _. apply (law_kill _ LD).
      + apply serial_app. split; auto. cbn. auto.
      + rewrite busy_app. exact F.
      + apply stops_snoc; auto. discriminate.
  Qed.

  (** ** The start *)
  Lemma count_seq : forall i k a, count (fun j => j =? i) (seq a k) = if (a <=? i) && (i <? a + k) then 1 else 0.
  Proof.
    intros i. induction k as [|k IH]; intro a; cbn [seq].
    - destruct (Nat.leb_spec a i), (Nat.ltb_spec i (a + 0)); cbn; auto; lia.
    - rewrite count_cons, IH. destruct (Nat.eqb_spec a i), (Nat.leb_spec a i), (Nat.leb_spec (S a) i), (Nat.ltb_spec i (S a + k)), (Nat.ltb_spec i (a + S k)); cbn; lia.
  Qed.
  Lemma count_map : forall A B (g : A -> B) f l, count f (map g l) = count (fun x => f (g x)) l.
  Proof. induction l as [|x l IH]; auto. cbn [map]. now rewrite !count_cons, IH. Qed.
  Variables (workers clock : list nat) (kills : nat).
  Notation rest := (concat (map (fun w => [PWork w]) workers ++ map (fun m => [PClock m]) clock ++ repeat [PKill] kills)).
  Lemma rest_in : forall x, In x rest -> (exists w, x = PWork w) \/ (exists m, x = PClock m) \/ x = PKill.
  Proof.
    intros x H. apply in_concat in H as (t & I & J). rewrite !in_app_iff, !in_map_iff in I. destruct I as [(w & <- & _)|[(m & <- & _)|I]].
    - destruct J as [<-|[]]. eauto.
    - destruct J as [<-|[]]. eauto.
    - apply repeat_spec in I. subst. destruct J as [<-|[]]. auto.
  Qed.
  Lemma rest_zero : forall f, (forall w, f (PWork w) = false) -> (forall m, f (PClock m) = false) -> f PKill = false -> count f rest = 0.
  Proof. intros f A B C. apply count_zero_of. intros x H. destruct (rest_in _ H) as [(w & ->)|[(m & ->)| ->]]; auto. Qed.
  Lemma start_count : forall i, count (fun x => match x with PFlush j => j =? i | _ => false end) (map PFlush (rev (seq 0 (S n)))) = if i <=? n then 1 else 0.
  Proof.
    intro i. rewrite count_map. rewrite (count_perm _ _ (seq 0 (S n))) by (symmetry; apply Permutation_rev). rewrite count_seq. destruct (Nat.leb_spec 0 i), (Nat.ltb_spec i (0 + S n)), (Nat.leb_spec i n); cbn; auto; lia.
  Qed.
  Lemma count_ext : forall A (f g : A -> bool) l, (forall x, In x l -> f x = g x) -> count f l = count g l.
  Proof. induction l as [|x l IH]; intro H; auto. rewrite !count_cons, H by now left. rewrite IH; auto. intros y I. apply H. now right. Qed.
  Lemma start_tok : forall i, count (tokp i) (concat (p_threads segs workers clock kills)) = if i <=? n then 1 else 0.
  Proof.
    intro i. unfold p_threads. cbn [concat]. rewrite count_app, rest_zero by auto. rewrite <- start_count, Nat.add_0_r. apply count_ext.
    intros x H. apply in_map_iff in H as (j & <- & _). reflexivity.
  Qed.
  Lemma start_flush : forall i, count (flushp i) (concat (p_threads segs workers clock kills)) = if i <=? n then 1 else 0.
  Proof.
    intro i. unfold p_threads. cbn [concat]. rewrite count_app, rest_zero by auto. rewrite <- start_count, Nat.add_0_r. apply count_ext.
    intros x H. apply in_map_iff in H as (j & <- & _). reflexivity.
  Qed.
  Lemma start_in : forall x, In x (concat (p_threads segs workers clock kills)) -> (exists j, x = PFlush j) \/ (exists w, x = PWork w) \/ (exists m, x = PClock m) \/ x = PKill.
  Proof.
    intros x H. unfold p_threads in H. cbn [concat] in H. apply in_app_iff in H as [H|H]; [|right; now apply rest_in].
    apply in_map_iff in H as (j & <- & _). eauto.
  Qed.
  Lemma invT_0 : invT (p_init D segs src0 d0) (concat (p_threads segs workers clock kills)).
  Proof.
    constructor; unfold pc, p_init; fs; auto.
    - intro i. rewrite start_tok, count_nil0. destruct (i <=? n); lia.
    - intros _ i L _. rewrite start_tok, count_nil0. destruct (Nat.leb_spec i n); lia.
    - intros i H. rewrite start_flush in H. destruct (Nat.leb_spec i n); [discriminate|]. unfold seg. rewrite nth_overflow; [reflexivity|]. unfold last_seg in *. lia.
    - intros i t [H|[H|[]]]; destruct (start_in _ H) as [(j & K)|[(w & K)|[(m & K)|K]]]; discriminate.
    - intro H. rewrite start_tok in H. discriminate.
    - intros i t [[H|[H|[]]]|H]; destruct (start_in _ H) as [(j & K)|[(w & K)|[(m & K)|K]]]; discriminate.
  Qed.
  Lemma invF_0 : invF (p_init D segs src0 d0) [].
  Proof. constructor; fs; unfold p_init; fs; auto. Qed.
  Lemma invD_0 : invD (p_init D segs src0 d0) (concat (p_threads segs workers clock kills)) [].
  Proof.
    constructor; cbn [In shown flat_map map]; auto; try easy.
    - exists (result segs src0). reflexivity.
    - rewrite count_zero_of; [reflexivity|]. intros x H. destruct (start_in _ H) as [(j & ->)|[(w & ->)|[(m & ->)| ->]]]; reflexivity.
    - apply stops_nil.
  Qed.

  Theorem pipe_inv : segs <> [] -> forall tr s ts, gexec step (p_init D segs src0 d0, p_threads segs workers clock kills) tr (s, ts) ->
    invT s (concat ts) /\ (dead s = false -> invF s tr) /\ invD s (concat ts) tr.
  Proof.
    intros NE tr s ts X. change (let c := (s, ts) in invT (fst c) (concat (snd c)) /\ (dead (fst c) = false -> invF (fst c) tr) /\ invD (fst c) (concat (snd c)) tr).
    cbv zeta. apply (gexec_inv step (fun s l tr => invT s l /\ (dead s = false -> invF s tr) /\ invD s l tr)) with (3 := X).
    - intros s1 l l' t P (A & B & C). split; [eapply invT_perm; eauto|]. split; auto. eapply invD_perm; eauto.
    - intros s1 it l t s' its ls (A & B & C) ST. split; [eapply invT_step; eauto|]. split; [intro; eapply invF_step; eauto|eapply invD_step; eauto].
    - split; [apply invT_0|]. split; [intros _; apply invF_0|apply invD_0].
  Qed.
End Run.
