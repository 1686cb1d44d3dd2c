(** The operators with several sources when no two calls overlap: exactly the
    specification, also for user functions that throw. *)
From Verif Require Import Base Machine MachineProofs Concur MultiSpec MultiModel MultiLin MultiCount MultiProofs MultiLatest.

Section Runs.
  Context {A B : Type} (o : mop A B) (D : machine B).
  Notation r1 := (run1 o D (fun _ => @nil (nat * ev A))).
  Notation rs := (seq_run o D (fun _ => @nil (nat * ev A))).

  Lemma r_gate : forall f s own d i e, mo_ready o s i = true -> gate o D (GS false s own d) i false = true ->
    r1 (S f) (GS false s own d) i e P0 = Some (GS false s own d).
  Proof. intros. cbn [run1 pstep g_op]. rewrite H. cbn [negb g_lock]. now rewrite andb_false_r, H0. Qed.
  Lemma r_pass : forall f s own d i e, mo_ready o s i = true -> gate o D (GS false s own d) i false = false ->
    r1 (S f) (GS false s own d) i e P0 = r1 f (GS false s own d) i e (PPre 0).
  Proof. intros. cbn [run1 pstep g_op]. rewrite H. cbn [negb g_lock]. now rewrite andb_false_r, H0. Qed.
  Lemma r_ret : forall f n s s' own d i e, mo_pre o n s i e = (s', PRet) ->
    r1 (S (S f)) (GS false s own d) i e (PPre n) = Some (GS false s' (if is_term e then i :: own else own) d).
  Proof. intros. cbn [run1 pstep g_op]. rewrite H. reflexivity. Qed.
  Lemma r_more : forall f n s s' own d i e, mo_pre o n s i e = (s', PMore) ->
    r1 (S f) (GS false s own d) i e (PPre n) = r1 f (GS false s' own d) i e (PPre (S n)).
  Proof. intros. cbn [run1 pstep g_op]. rewrite H. reflexivity. Qed.
  Lemma r_go : forall f n s s' own d i e p, mo_pre o n s i e = (s', PGo p) ->
    r1 (S f) (GS false s own d) i e (PPre n) = r1 f (GS false s' own d) i e (PLock p).
  Proof. intros. cbn [run1 pstep g_op]. rewrite H. reflexivity. Qed.
  Lemma r_throw : forall f n s s' own d i e x, mo_pre o n s i e = (s', PThrow x) ->
    r1 (S f) (GS false s own d) i e (PPre n) = r1 f (GS false s' own d) i e (PCatch x).
  Proof. intros. cbn [run1 pstep g_op]. rewrite H. reflexivity. Qed.
  Lemma r_lock : forall f s own d i e p s' os, mo_body o s p = (s', os, None) ->
    r1 (S (S (S (S (S f))))) (GS false s own d) i e (PLock p) =
    Some (GS false s' (if is_term e then i :: own else own) (mrun D d os)).
  Proof. intros. cbn [run1 pstep g_op g_lock g_own g_down]. rewrite H. cbn. destruct os; reflexivity. Qed.
  Lemma r_lock_throw : forall f s own d i e p s' os x, mo_body o s p = (s', os, Some x) ->
    r1 (S (S (S (S f)))) (GS false s own d) i e (PLock p) =
    r1 f (GS false s' own (mrun D d os)) i e (PCatch x).
  Proof. intros. cbn [run1 pstep g_op g_lock g_own g_down]. rewrite H. cbn. destruct os; reflexivity. Qed.
  Lemma r_catch : forall f s own d i e x, gate o D (GS false s own d) i false = false ->
    r1 (S f) (GS false s own d) i e (PCatch x) = r1 f (GS false s (i :: own) d) i e (PLock (mo_err o x)).
  Proof. intros. cbn [run1 pstep g_op g_lock]. now rewrite andb_false_r, H. Qed.

  Lemma seq_run_app : forall a b g, rs g (a ++ b) = match rs g a with Some g' => rs g' b | None => None end.
  Proof.
    induction a as [|[i e] a IH]; intros b g; cbn [seq_run app]; auto. destruct (r1 20 g i e P0); auto.
  Qed.
End Runs.

(** One event at a time, from any reachable state. *)
Section Steps.
  Context {A B : Type} (o : mop A B) (D : machine B) (L : lawful D) (d0 : mst D).
  Variable out : hist A -> nat -> ev A -> list (ev B).
  Variable INV : mo_S o -> list nat -> hist A -> Prop.
  Notation r1 := (run1 o D (fun _ => @nil (nat * ev A))).
  Notation rs := (seq_run o D (fun _ => @nil (nat * ev A))).
  Hypothesis INV_init : INV (mo_init o) [] [].
  Hypothesis step : forall s own d lh i e, INV s own lh -> mdisp D d = false -> mo_ready o s i = true ->
    exists s' own', r1 20 (GS false s own d) i e P0 =
        Some (GS false s' own' (mrun D d (if endedb i lh then [] else out lh i e))) /\
      (mdisp D (mrun D d (if endedb i lh then [] else out lh i e)) = false ->
       INV s' own' (lh ++ if endedb i lh then [] else [(i, e)])).

  Lemma r_ready : forall g i e g', r1 20 g i e P0 = Some g' -> mo_ready o (g_op g) i = true.
  Proof. intros g i e g' H. cbn [run1 pstep] in H. destruct (mo_ready o (g_op g) i); auto. discriminate. Qed.

  Lemma seq_inv : forall h g, rs (g_init o D d0) h = Some g ->
    g_lock g = false /\ g_down g = mrun D d0 (outs out h) /\
    (mdisp D (g_down g) = false -> INV (g_op g) (g_own g) (live h)).
  Proof.
    induction h as [|[i e] h IH] using rev_ind; intros g H.
    - cbn in H. injection H as <-. cbn. auto.
    - rewrite seq_run_app in H. destruct (rs (g_init o D d0) h) as [g1|]; [|discriminate].
      destruct (IH g1 eq_refl) as (E1 & E2 & E3). cbn [seq_run] in H.
      destruct (r1 20 g1 i e P0) as [g2|] eqn:Q; [|discriminate]. injection H as <-.
      pose proof (r_ready _ _ _ _ Q) as RD. destruct g1 as [lk s own d]. cbn [g_lock g_op g_own g_down] in *. subst lk.
      rewrite outs_snoc, mrun_app, <- E2, live_snoc. destruct (mdisp D d) eqn:M.
      + assert (G : gate o D (GS false s own d) i false = true).
        { unfold gate. cbn. rewrite M. cbn. now rewrite !orb_true_r. }
        rewrite r_gate in Q by auto. injection Q as <-. cbn. rewrite (mrun_dead B D L) by auto. repeat split; auto. congruence.
      + destruct (step s own d (live h) i e (E3 eq_refl) M RD) as (s' & own' & E & I). rewrite E in Q.
        injection Q as <-. cbn. repeat split; auto.
  Qed.

  Lemma seq_next : forall h g i e, rs (g_init o D d0) h = Some g -> mo_ready o (g_op g) i = true ->
    exists g', rs (g_init o D d0) (h ++ [(i, e)]) = Some g'.
  Proof.
    intros h g i e H RD. rewrite seq_run_app, H. destruct (seq_inv h g H) as (E1 & E2 & E3).
    destruct g as [lk s own d]. cbn in E1, E2, E3, RD. subst lk. destruct (mdisp D d) eqn:M.
    - assert (G : gate o D (GS false s own d) i false = true).
      { unfold gate. cbn. rewrite M. cbn. now rewrite !orb_true_r. }
      cbn [seq_run]. rewrite r_gate by auto. eauto.
    - destruct (step s own d (live h) i e (E3 eq_refl) M RD) as (s' & own' & E & _).
      cbn [seq_run]. rewrite E. eauto.
  Qed.
End Steps.

Section SeqCount.
  Context {A B : Type} (o : mop A B) (D : machine B).
  Variable out : hist A -> nat -> ev A -> list (ev B).
  Variable N : hist A -> nat.
  Variable cnt : mo_S o -> nat.
  Variable R : mo_S o -> hist A -> Prop.
  Variable post : ev A -> nat -> mo_P o.
  Hypothesis L : lawful D.
  Hypothesis own : forall i, mo_own o i = true.
  Hypothesis nogate : forall s i, mo_gate o s i = false.
  Hypothesis R_init : R (mo_init o) [].
  Hypothesis cnt_init : cnt (mo_init o) = N [].
  Hypothesis ready : forall s h i, R s h -> mo_ready o s i = true -> i < N h.
  (** Either nothing before the lock, or nothing under the lock; a throwing user
      function gives the error and nothing else. *)
  Hypothesis next : forall s h i v, R s h -> i < N h -> endedb i h = false ->
    (exists s', mo_pre o 0 s i (Next v) = (s', PRet) /\ out h i (Next v) = [] /\ R s' (h ++ [(i, Next v)]) /\
                (N (h ++ [(i, Next v)]) = N h /\ cnt s' = cnt s \/
                 N (h ++ [(i, Next v)]) = S (N h) /\ cnt s' = S (cnt s) /\ completed (N h) h = false)) \/
    (mo_pre o 0 s i (Next v) = (s, PGo (post (Next v) i)) /\
     exists s' os t, mo_body o s (post (Next v) i) = (s', os, t) /\
       match t with
       | None => os = out h i (Next v) /\ R s' (h ++ [(i, Next v)]) /\ cnt s' = cnt s /\ N (h ++ [(i, Next v)]) = N h
       | Some x => os = [] /\ out h i (Next v) = [Err x]
       end).
  Hypothesis pre_err : forall s i x, mo_pre o 0 s i (Err x) = (s, PGo (post (Err x) i)).
  Hypothesis body_err : forall s i x, mo_body o s (post (Err x) i) = (s, [Err x], None).
  Hypothesis op_err : forall s x, mo_body o s (mo_err o x) = (s, [Err x], None).
  Hypothesis out_err : forall h i x, out h i (Err x) = [Err x].
  Hypothesis pre_done : forall s i, exists s', mo_pre o 0 s i Done = (s', if cnt s =? 1 then PGo (post Done i) else PRet) /\
    cnt s' = cnt s - 1 /\ forall h, R s h -> i < N h -> R s' (h ++ [(i, Done)]).
  Hypothesis body_done : forall s i, mo_body o s (post Done i) = (s, [Done], None).
  Hypothesis out_done : forall h i, N (h ++ [(i, Done)]) = N h /\
    out h i Done = if forallb (fun j => completed j (h ++ [(i, Done)])) (seq 0 (N h)) then [Done] else [].

  Definition cinv (s : mo_S o) (ow : list nat) (h : hist A) : Prop :=
    (forall i, existsb (Nat.eqb i) ow = endedb i h) /\ cnt s = length (opn (N h) h) /\ R s h.

  Lemma own_term : forall ow (h : hist A) i (e : ev A), (forall j, existsb (Nat.eqb j) ow = endedb j h) ->
    forall j, existsb (Nat.eqb j) (if is_term e then i :: ow else ow) = endedb j (h ++ [(i, e)]).
  Proof.
    intros ow h i e H j. rewrite endedb_app. cbn. rewrite orb_false_r.
    destruct (is_term e); cbn; rewrite H, ?andb_true_r, ?andb_false_r, ?orb_false_r; auto.
    rewrite orb_comm. f_equal. apply Nat.eqb_sym.
  Qed.

  Lemma count_step : forall s ow d lh i e, cinv s ow lh -> mdisp D d = false -> mo_ready o s i = true ->
    exists s' own', run1 o D (fun _ => []) 20 (GS false s ow d) i e P0 =
        Some (GS false s' own' (mrun D d (if endedb i lh then [] else out lh i e))) /\
      (mdisp D (mrun D d (if endedb i lh then [] else out lh i e)) = false ->
       cinv s' own' (lh ++ if endedb i lh then [] else [(i, e)])).
  Proof.
    intros s ow d lh i e (I1 & I2 & I3) M RD.
    assert (G : forall s2 ow2 d2, mdisp D d2 = false -> gate o D (GS false s2 ow2 d2) i false = existsb (Nat.eqb i) ow2).
    { intros. unfold gate, owned. cbn. rewrite own, nogate, H. cbn. now rewrite !orb_false_r. }
    destruct (endedb i lh) eqn:EN.
    - rewrite r_gate; auto; [|rewrite G, I1; auto]. exists s, ow. rewrite app_nil_r. split; auto. intros _. repeat split; auto.
    - rewrite r_pass; auto; [|rewrite G, I1; auto]. pose proof (ready _ _ _ I3 RD) as Li. destruct e as [v|x|].
      + destruct (next s lh i v I3 Li EN) as [(s' & Q & O & R' & C)|(Q & s' & os & t & Q2 & T)].
        * rewrite (r_ret _ _ _ _ _ _ _ _ _ _ Q). exists s', ow. rewrite O. split; auto. intros _. split; [|split]; auto.
          -- exact (own_term ow lh i (Next v) I1).
          -- destruct C as [[C1 C2]|(C1 & C2 & C3)].
             ++ rewrite C1, opn_same; [congruence|]. intro j. apply completed_next.
             ++ rewrite C1, opn_same; [rewrite opn_S; auto; congruence|]. intro j. apply completed_next.
        * rewrite (r_go _ _ _ _ _ _ _ _ _ _ _ Q). destruct t as [x|].
          -- destruct T as [-> ->]. rewrite (r_lock_throw _ _ _ _ _ _ _ _ _ _ _ _ Q2). cbn [mrun].
             rewrite mrun_nil, r_catch by (rewrite G, I1; auto). rewrite (r_lock _ _ _ _ _ _ _ _ _ _ _ (op_err s' x)).
             exists s', (i :: ow). split; auto. intro M'. rewrite mrun_cons, mrun_nil, (law_term D L) in M'; auto. discriminate.
          -- destruct T as (-> & R' & C1 & C2). rewrite (r_lock _ _ _ _ _ _ _ _ _ _ _ Q2). exists s', ow. split; auto.
             intros _. split; [|split]; auto.
             ++ exact (own_term ow lh i (Next v) I1).
             ++ rewrite C2, opn_same; [congruence|]. intro j. apply completed_next.
      + rewrite (r_go _ _ _ _ _ _ _ _ _ _ _ (pre_err s i x)), (r_lock _ _ _ _ _ _ _ _ _ _ _ (body_err s i x)), out_err.
        exists s, (i :: ow). split; auto. intro M'. rewrite mrun_cons, mrun_nil, (law_term D L) in M'; auto. discriminate.
      + destruct (pre_done s i) as (s' & Q & C & R'). destruct (out_done lh i) as [E1 E2]. rewrite E2, opn_all.
        pose proof (opn_done A (N lh) lh i Li (completed_ended _ _ _ EN)) as OD. destruct (Nat.eqb_spec (cnt s) 1) as [C1|C1].
        * assert (LE : length (opn (N lh) (lh ++ [(i, Done)])) = 0) by lia. rewrite LE. cbn [Nat.eqb].
          rewrite (r_go _ _ _ _ _ _ _ _ _ _ _ Q), (r_lock _ _ _ _ _ _ _ _ _ _ _ (body_done s' i)).
          exists s', (i :: ow). split; auto. intro M'. rewrite mrun_cons, mrun_nil, (law_term D L) in M'; auto. discriminate.
        * rewrite (r_ret _ _ _ _ _ _ _ _ _ _ Q). destruct (Nat.eqb_spec (length (opn (N lh) (lh ++ [(i, Done)]))) 0); [lia|].
          exists s', (i :: ow). split; auto. intros _. split; [|split].
          -- exact (own_term ow lh i Done I1).
          -- rewrite E1. lia.
          -- auto.
  Qed.
  Lemma cinv_init : cinv (mo_init o) [] [].
  Proof.
    split; [|split]; auto. rewrite cnt_init. unfold opn. cbn. clear. induction (N []) as [|n IH]; auto.
    rewrite seq_S, filter_app, app_length, <- IH. cbn. lia.
  Qed.
End SeqCount.

Theorem combine_latest_seq : forall A B n (f : list A -> res B) (D : machine B) d0 h, lawful D ->
  Forall (fun x => fst x < n) h ->
  exists g, seq_run (combine_latest_op n f) D (fun _ => []) (g_init _ D d0) h = Some g /\
    g_lock g = false /\ g_down g = mrun D d0 (outs (combine_latest_out n f) h).
Proof.
  intros A B n f D d0 h L FA. set (op := combine_latest_op n f).
  assert (ST : forall s ow d lh i e, cinv op (fun _ => n) (@cs_needed _) (cl_R n) s ow lh -> mdisp D d = false -> mo_ready op s i = true ->
    exists s' own', run1 op D (fun _ => []) 20 (GS false s ow d) i e P0 =
        Some (GS false s' own' (mrun D d (if endedb i lh then [] else combine_latest_out n f lh i e))) /\
      (mdisp D (mrun D d (if endedb i lh then [] else combine_latest_out n f lh i e)) = false ->
       cinv op (fun _ => n) (@cs_needed _) (cl_R n) s' own' (lh ++ if endedb i lh then [] else [(i, e)]))).
  { apply (count_step op D (combine_latest_out n f) (fun _ => n) (@cs_needed _) (cl_R n) comb_post L); auto.
    - intros s h' i _ RD. now apply Nat.ltb_lt in RD.
    - intros s h' i v RR Li _. right. split; auto.
      assert (E : upd i (fun _ => Some v) (cs_vals s) = map (fun j => latest j (h' ++ [(i, Next v)])) (seq 0 n)).
      { rewrite RR, upd_map. apply map_ext. intro j. now rewrite latest_snoc. }
      cbn. rewrite E, all_same. unfold combine_latest_out.
      destruct (all_of (map (fun j => latest j (h' ++ [(i, Next v)])) (seq 0 n))) as [l|].
      + destruct (f l) as [b|x] eqn:Q; do 3 eexists; (split; [reflexivity|]); cbn; rewrite ?Q; repeat split; auto.
      + do 3 eexists. split; [reflexivity|]. cbn. repeat split; auto.
    - intros s i. eexists. split; [reflexivity|]. split; auto. intros h' RR _.
      unfold cl_R in *. cbn. rewrite RR. apply map_ext. intro j. now rewrite latest_done. }
  assert (IN : cinv op (fun _ => n) (@cs_needed _) (cl_R n) (mo_init op) [] []).
  { apply cinv_init; auto. unfold cl_R. cbn. clear. generalize 0 at 1. induction n as [|m IH]; intro a; cbn; auto. f_equal. auto. }
  assert (EX : exists g, seq_run op D (fun _ => []) (g_init op D d0) h = Some g).
  { induction h as [|[i e] h IH] using rev_ind; [cbn; eauto|]. apply Forall_app in FA as [FA FB].
    destruct (IH FA) as [g G]. eapply seq_next; eauto. cbn. apply Nat.ltb_lt. now inversion FB. }
  destruct EX as [g G]. exists g. split; auto. destruct (seq_inv op D L d0 _ _ IN ST h g G) as (E1 & E2 & _). auto.
Qed.

Theorem zip_seq : forall A B n (f : list (option A) -> res B) (D : machine B) d0 h, lawful D ->
  Forall (fun x => fst x < n) h ->
  exists g, seq_run (zip_op n f) D (fun _ => []) (g_init _ D d0) h = Some g /\
    g_lock g = false /\ g_down g = mrun D d0 (outs (zip_out n (sel f)) h).
Proof.
  intros A B n f D d0 h L FA. set (op := zip_op n f).
  assert (ST : forall s ow d lh i e, cinv op (fun _ => n) (@cs_needed _) (zip_R n) s ow lh -> mdisp D d = false -> mo_ready op s i = true ->
    exists s' own', run1 op D (fun _ => []) 20 (GS false s ow d) i e P0 =
        Some (GS false s' own' (mrun D d (if endedb i lh then [] else zip_out n (sel f) lh i e))) /\
      (mdisp D (mrun D d (if endedb i lh then [] else zip_out n (sel f) lh i e)) = false ->
       cinv op (fun _ => n) (@cs_needed _) (zip_R n) s' own' (lh ++ if endedb i lh then [] else [(i, e)]))).
  { apply (count_step op D (zip_out n (sel f)) (fun _ => n) (@cs_needed _) (zip_R n) comb_post L); auto.
    - intros s h' i _ RD. now apply Nat.ltb_lt in RD.
    - intros s h' i v RR Li _. right. split; auto.
      assert (E : upd i (fun q => q ++ [Some v]) (cs_vals s) = map (fun j => map Some (skipn (rows n h') (values j (h' ++ [(i, Next v)])))) (seq 0 n)).
      { rewrite RR, upd_map. apply map_ext_in. intros j Hj. apply in_seq in Hj. rewrite values_app, values_next, Nat.eqb_sym. cbn.
        destruct (i =? j); [|now rewrite app_nil_r]. rewrite skipn_app, map_app.
        pose proof (rows_le A n h' j ltac:(lia)). replace (rows n h' - length (values j h')) with 0 by lia. reflexivity. }
      cbn [op mo_body zip_op comb_post cs_vals cs_needed]. rewrite E, all_fronts. unfold zip_out.
      pose proof (rows_snoc A n h' i v Li) as RS. unfold row in *.
      destruct (all_of (map (fun j => nth_error (values j (h' ++ [(i, Next v)])) (rows n h')) (seq 0 n))) as [l|]; rewrite RS.
      + rewrite (proj2 (Nat.ltb_lt _ _)) by lia. unfold sel. destruct (f (map Some l)) as [b|x] eqn:Q; do 3 eexists; (split; [reflexivity|]); cbn; auto.
        repeat split; auto. unfold zip_R. cbn [cs_vals]. rewrite map_map, RS. apply map_ext. intro j. apply tl_skip.
      + rewrite (proj2 (Nat.ltb_ge _ _)) by lia. do 3 eexists. split; [reflexivity|]. repeat split; auto.
        unfold zip_R. cbn [cs_vals]. now rewrite RS.
    - intros s i. eexists. split; [reflexivity|]. split; auto. intros h' RR _.
      unfold zip_R in *. cbn. rewrite RR. apply map_ext. intro j. rewrite values_done.
      replace (rows n (h' ++ [(i, Done)])) with (rows n h'); auto. unfold rows.
      assert (X : forall l, map (fun j => length (values j (h' ++ [(i, Done)]))) l = map (fun j => length (values j h')) l).
      { intro l. apply map_ext. intro. now rewrite values_done. }
      now rewrite X. }
  assert (IN : cinv op (fun _ => n) (@cs_needed _) (zip_R n) (mo_init op) [] []).
  { apply cinv_init; auto. unfold zip_R. cbn. replace (rows n []) with 0.
    - assert (X : forall m a, repeat (@nil (option A)) m = map (fun j => map Some (skipn 0 (values j []))) (seq a m)).
      { clear. induction m as [|m IH]; intro a; cbn; auto. f_equal. apply IH. }
      apply X.
    - unfold rows. clear. destruct n as [|m]; auto. cbn. induction (seq 1 m); auto. }
  assert (EX : exists g, seq_run op D (fun _ => []) (g_init op D d0) h = Some g).
  { induction h as [|[i e] h IH] using rev_ind; [cbn; eauto|]. apply Forall_app in FA as [FA FB].
    destruct (IH FA) as [g G]. eapply seq_next; eauto. cbn. apply Nat.ltb_lt. now inversion FB. }
  destruct EX as [g G]. exists g. split; auto. destruct (seq_inv op D L d0 _ _ IN ST h g G) as (E1 & E2 & _). auto.
Qed.

Lemma endedb_1 : forall A j i (e : ev A), endedb j [(i, e)] = (i =? j) && is_term e.
Proof. intros. unfold endedb. cbn. now rewrite orb_false_r. Qed.

Section SeqLatest.
  Context {A B : Type} (n : nat) (f : A -> list A -> res B) (D : machine B) (L : lawful D) (d0 : mst D).
  Notation op := (with_latest_op n f).
  Notation out := (with_latest_out n f).

  Definition linv (s : list (option A)) (ow : list nat) (h : hist A) : Prop :=
    (forall i, existsb (Nat.eqb (S i)) ow = endedb (S i) h) /\ endedb 0 h = false /\ wR n s h.

  Lemma latest_step : forall (s : mo_S op) ow d lh i e, linv s ow lh -> mdisp D d = false -> mo_ready op s i = true ->
    exists (s' : mo_S op) own', run1 op D (fun _ => []) 20 (GS false s ow d) i e P0 =
        Some (GS false s' own' (mrun D d (if endedb i lh then [] else out lh i e))) /\
      (mdisp D (mrun D d (if endedb i lh then [] else out lh i e)) = false ->
       linv s' own' (lh ++ if endedb i lh then [] else [(i, e)])).
  Proof.
    intros s ow d lh i e (I1 & I2 & I3) M RD. unfold wR in I3.
    assert (OUT : forall x, (mdisp D (mrun D d [Err x]) = false -> False) /\ (mdisp D (mrun D d [Done]) = false -> False)).
    { intro x. split; intro M'; rewrite mrun_cons, mrun_nil, (law_term D L) in M'; auto; discriminate. }
    destruct i as [|i].
    - assert (G : forall s2 ow2, gate op D (GS false s2 ow2 d) 0 false = false).
      { intros. unfold gate. cbn. now rewrite M. }
      rewrite I2, r_pass by auto. destruct e as [v|x|].
      + unfold with_latest_out. cbn [Nat.eqb]. rewrite <- I3, <- all_same.
        destruct (all_some s) as [l|] eqn:Q; [destruct (f v l) as [b|x] eqn:F|].
        * erewrite (r_go op D _ 0 s s _ _ 0 (Next v) (Next b)) by (cbn; now rewrite Q, F).
          rewrite (r_lock op D _ s _ _ _ _ (Next b) s [Next b] eq_refl). exists s, ow. split; auto. intros _. split; [|split].
          -- intro j. rewrite endedb_app, I1, endedb_1. cbn [Nat.eqb andb]. now rewrite orb_false_r.
          -- rewrite endedb_app, I2. reflexivity.
          -- apply wR_same; auto.
        * erewrite (r_throw op D _ 0 s s _ _ 0 (Next v) x) by (cbn; now rewrite Q, F).
          rewrite r_catch by auto. cbn [mo_err with_latest_op].
          rewrite (r_lock op D _ s _ _ _ _ (Err x) s [Err x] eq_refl). exists s, (0 :: ow). split; auto. intro M'. destruct (OUT x) as [O _]. destruct (O M').
        * erewrite (r_ret op D _ 0 s s _ _ 0 (Next v)) by (cbn; now rewrite Q). exists s, ow. split; auto. intros _. split; [|split].
          -- intro j. rewrite endedb_app, I1, endedb_1. cbn [Nat.eqb andb]. now rewrite orb_false_r.
          -- rewrite endedb_app, I2. reflexivity.
          -- apply wR_same; auto.
      + rewrite (r_go op D _ 0 s s _ _ 0 (Err x) (Err x) eq_refl), (r_lock op D _ s _ _ _ _ (Err x) s [Err x] eq_refl).
        exists s, (0 :: ow). split; auto. intro M'. destruct (OUT x) as [O _]. destruct (O M').
      + rewrite (r_go op D _ 0 s s _ _ 0 Done Done eq_refl), (r_lock op D _ s _ _ _ _ Done s [Done] eq_refl).
        exists s, (0 :: ow). split; auto. intro M'. destruct (OUT 0) as [_ O]. destruct (O M').
    - assert (G : gate op D (GS false s ow d) (S i) false = existsb (Nat.eqb (S i)) ow).
      { unfold gate, owned. cbn [mo_own with_latest_op mo_gate g_own g_down]. rewrite M. cbn [Nat.eqb negb andb]. now rewrite !orb_false_r. }
      rewrite I1 in G. destruct (endedb (S i) lh) eqn:EN.
      + rewrite r_gate by auto. exists s, ow. rewrite app_nil_r. split; auto. intros _. split; [|split]; auto.
      + rewrite r_pass by auto.
        assert (O0 : forall e, endedb 0 (lh ++ [(S i, e)]) = false) by (intro; rewrite endedb_app, I2; reflexivity).
        assert (OW : forall e j, existsb (Nat.eqb (S j)) (if is_term e then S i :: ow else ow) = endedb (S j) (lh ++ [(S i, e)])).
        { intros e0 j. rewrite endedb_app, endedb_1. destruct (is_term e0).
          - cbn [existsb]. rewrite I1, andb_true_r, orb_comm. f_equal. apply Nat.eqb_sym.
          - rewrite I1, andb_false_r, orb_false_r. reflexivity. }
        destruct e as [v|x|].
        * rewrite (r_ret op D _ 0 s (upd (S i - 1) (fun _ => Some v) s) _ _ (S i) (Next v) eq_refl).
          exists (upd (S i - 1) (fun _ => Some v) s), ow. split; auto. intros _. split; [|split]; auto.
          -- apply (OW (Next v)).
          -- apply wR_next; auto.
        * rewrite (r_go op D _ 0 s s _ _ (S i) (Err x) (Err x) eq_refl), (r_lock op D _ s _ _ _ _ (Err x) s [Err x] eq_refl).
          exists s, (S i :: ow). split; auto. intro M'. destruct (OUT x) as [O _]. destruct (O M').
        * rewrite (r_ret op D _ 0 s s _ _ (S i) Done eq_refl). exists s, (S i :: ow). split; auto. intros _. split; [|split]; auto.
          -- apply (OW Done).
          -- apply wR_same; auto.
  Qed.

  Theorem with_latest_seq : forall h, Forall (fun x => fst x <= n) h ->
    exists g, seq_run op D (fun _ => []) (g_init op D d0) h = Some g /\
      g_lock g = false /\ g_down g = mrun D d0 (outs out h).
  Proof.
    intros h FA.
    assert (IN : linv (mo_init op) [] []).
    { split; [|split]; auto. unfold wR. cbn. clear. generalize 1. induction n as [|m IH]; intro a; cbn; auto. f_equal. auto. }
    assert (EX : exists g, seq_run op D (fun _ => []) (g_init op D d0) h = Some g).
    { induction h as [|[i e] h IH] using rev_ind; [cbn; eauto|]. apply Forall_app in FA as [FA FB].
      destruct (IH FA) as [g G]. eapply seq_next with (INV := linv); eauto; [exact latest_step|]. cbn. apply Nat.leb_le. now inversion FB. }
    destruct EX as [g G]. exists g. split; auto. destruct (seq_inv op D L d0 _ _ IN latest_step h g G) as (E1 & E2 & _). auto.
  Qed.
End SeqLatest.

Section SeqSwitch.
  Context {V : Type} (D : machine V) (L : lawful D) (d0 : mst D).
  Notation op := (switch_op V).
  Notation out := (@switch_out V).

  Definition gone_spec (h : hist (unit + V)) (i : nat) : bool :=
    if i =? 0 then completed 0 h else if i <? opened h then true else completed i h.
  Definition sinv (s : switch_s) (ow : list nat) (h : hist (unit + V)) : Prop :=
    sw_subs s = opened h /\ sw_last s = (if opened h =? 0 then None else Some (opened h)) /\
    (forall i, sw_is_gone s i = gone_spec h i) /\
    (forall i, opened h < i -> endedb i h = false) /\
    endedb 0 h = completed 0 h /\ endedb (opened h) h = completed (opened h) h.

  Lemma all_gone_spec : forall s ow h, sinv s ow h ->
    sw_all_gone s = completed 0 h && ((opened h =? 0) || completed (opened h) h).
  Proof.
    intros s ow h (E1 & E2 & E3 & _). unfold sw_all_gone. rewrite E1.
    assert (X : forall l, forallb (sw_is_gone s) l = forallb (gone_spec h) l).
    { induction l as [|x l IH]; auto. cbn. now rewrite E3, IH. }
    rewrite X. cbn [seq forallb]. f_equal. destruct (opened h) as [|k] eqn:O; auto. cbn [Nat.eqb orb].
    rewrite seq_S, forallb_app. cbn [forallb]. rewrite andb_true_r.
    assert (Y : forallb (gone_spec h) (seq 1 k) = true).
    { apply forallb_forall. intros j J. apply in_seq in J. unfold gone_spec. rewrite O.
      rewrite (proj2 (Nat.eqb_neq j 0)) by lia. rewrite (proj2 (Nat.ltb_lt _ _)) by lia. reflexivity. }
    rewrite Y. cbn [andb]. unfold gone_spec. rewrite O. replace (1 + k) with (S k) by lia. cbn [Nat.eqb].
    rewrite Nat.ltb_irrefl. reflexivity.
  Qed.

  Lemma opened_one : forall i (e : ev (unit + V)), opened [(i, e)] =
    if (i =? 0) && match e with Next (inl _) => true | _ => false end then 1 else 0.
  Proof. intros i [[u|v]|x|]; unfold opened; cbn; destruct (i =? 0); reflexivity. Qed.
  Lemma completed_one : forall j i (e : ev (unit + V)), completed j [(i, e)] = (i =? j) && match e with Done => true | _ => false end.
  Proof. intros. cbn. now rewrite orb_false_r. Qed.
  Lemma endedb_one : forall j i (e : ev (unit + V)), endedb j [(i, e)] = (i =? j) && is_term e.
  Proof. intros. cbn. now rewrite orb_false_r. Qed.

  (** An event that neither opens a source nor ends a current one. *)
  Lemma sinv_skip : forall s ow h i e, sinv s ow h -> i <= opened h ->
    (is_term e = true -> i <> 0 /\ i <> opened h) ->
    (i = 0 -> match e with Next (inl _) => False | _ => True end) ->
    sinv s ow (h ++ [(i, e)]).
  Proof.
    intros s ow h i e (E1 & E2 & E3 & E4 & E5 & E6) Li T U.
    assert (O : opened (h ++ [(i, e)]) = opened h).
    { rewrite opened_app, opened_one. destruct (Nat.eqb_spec i 0); cbn; [|lia]. destruct e as [[u|v]|x|]; cbn; try lia. }
    assert (C : forall j, j = 0 \/ j >= opened h -> completed j (h ++ [(i, e)]) = completed j h /\ endedb j (h ++ [(i, e)]) = endedb j h).
    { intros j J. rewrite completed_app, endedb_app, completed_one, endedb_one.
      destruct (Nat.eqb_spec i j) as [->|NE]; cbn; [|now rewrite !orb_false_r].
      destruct (is_term e) eqn:TE; [destruct (T eq_refl); lia|]. destruct e; try discriminate. now rewrite !orb_false_r. }
    unfold sinv. rewrite O. repeat split; auto.
    - intro j. rewrite E3. unfold gone_spec. rewrite O. destruct (Nat.eqb_spec j 0) as [->|NZ].
      + symmetry. apply C. auto.
      + destruct (Nat.ltb_spec j (opened h)); auto. symmetry. apply C. auto.
    - intros j J. destruct (C j) as [_ ->]; [lia|]. auto.
    - destruct (C 0) as [-> ->]; auto.
    - destruct (C (opened h)) as [-> ->]; auto.
  Qed.

  Lemma switch_step : forall (s : mo_S op) ow d lh i e, sinv s ow lh -> mdisp D d = false -> mo_ready op s i = true ->
    exists (s' : mo_S op) own', run1 op D (fun _ => []) 20 (GS false s ow d) i e P0 =
        Some (GS false s' own' (mrun D d (if endedb i lh then [] else out lh i e))) /\
      (mdisp D (mrun D d (if endedb i lh then [] else out lh i e)) = false ->
       sinv s' own' (lh ++ if endedb i lh then [] else [(i, e)])).
  Proof.
    intros s ow d lh i e I M RD. pose proof I as (E1 & E2 & E3 & E4 & E5 & E6).
    assert (Li : i <= opened lh) by (cbn in RD; apply Nat.leb_le in RD; lia).
    assert (G : gate op D (GS false s ow d) i false = sw_is_gone s i).
    { unfold gate. cbn [mo_own switch_op mo_gate g_op g_down andb orb]. rewrite M. cbn. apply orb_false_r. }
    rewrite E3 in G.
    assert (IO : forall ow2 s2 h2, sinv s2 ow h2 -> sinv s2 ow2 h2) by (intros ow2 s2 h2 H; exact H).
    assert (TM : forall p, is_term p = true -> mdisp D (mrun D d [p]) = false -> False).
    { intros p T M'. rewrite mrun_cons, mrun_nil, (law_term D L) in M'; auto. discriminate. }
    destruct (Nat.eq_dec i 0) as [Z|Z]; [|destruct (Nat.eq_dec i (opened lh)) as [Z2|Z2]].
    - (* outer *)
      subst i. unfold gone_spec in G. cbn [Nat.eqb] in G. rewrite <- E5 in G. destruct (endedb 0 lh) eqn:EN.
      + rewrite r_gate by auto. exists s, ow. rewrite app_nil_r. auto.
      + rewrite r_pass by auto. unfold switch_out. cbn [Nat.eqb orb]. destruct e as [[u|v]|x|].
        * rewrite (r_more op D _ 0 s (SwitchS (match sw_last s with Some k => k :: sw_gone s | None => sw_gone s end) (sw_last s) (sw_subs s)) _ _ 0 (Next (inl u)) eq_refl).
          rewrite (r_ret op D _ 1 (SwitchS (match sw_last s with Some k => k :: sw_gone s | None => sw_gone s end) (sw_last s) (sw_subs s)) (SwitchS (match sw_last s with Some k => k :: sw_gone s | None => sw_gone s end) (Some (S (sw_subs s))) (S (sw_subs s))) _ _ 0 (Next (inl u)) eq_refl).
          eexists _, _. split; [reflexivity|]. intros _. unfold sinv. cbn [sw_subs sw_last].
          assert (O : opened (lh ++ [(0, Next (inl u))]) = S (opened lh)) by (rewrite opened_app, opened_one; cbn; lia).
          assert (C : forall j, completed j (lh ++ [(0, Next (inl u))]) = completed j lh).
          { intro j. rewrite completed_app, completed_one. now rewrite andb_false_r, orb_false_r. }
          assert (C2 : forall j, endedb j (lh ++ [(0, Next (inl u))]) = endedb j lh).
          { intro j. rewrite endedb_app, endedb_one. cbn [is_term]. now rewrite andb_false_r, orb_false_r. }
          rewrite O, E1, E2. repeat split; auto.
          -- intro j. unfold sw_is_gone, gone_spec. cbn [sw_gone]. rewrite O, !C. specialize (E3 j). unfold sw_is_gone, gone_spec in E3.
             destruct (Nat.eqb_spec (opened lh) 0) as [OZ|OZ].
             ++ rewrite E3, OZ. destruct (Nat.eqb_spec j 0); auto. rewrite !(proj2 (Nat.ltb_ge _ _)) by lia. reflexivity.
             ++ cbn [existsb]. rewrite E3. clear E3. destruct (Nat.eqb_spec j 0) as [JZ|JZ]; [subst j; destruct (Nat.eqb_spec 0 (opened lh)); [lia | reflexivity]|].
                destruct (Nat.eqb_spec j (opened lh)) as [->|]; cbn [orb].
                ** now rewrite (proj2 (Nat.ltb_lt _ _)) by lia.
                ** destruct (Nat.ltb_spec j (opened lh)), (Nat.ltb_spec j (S (opened lh))); auto; lia.
          -- intros j J. rewrite C2. apply E4. lia.
          -- rewrite C, C2. congruence.
          -- rewrite C, C2, E4 by lia. symmetry. apply completed_ended. apply E4. lia.
        * rewrite (r_ret op D _ 0 s s _ _ 0 (Next (inr v)) eq_refl). exists s, ow. split; auto. intros _.
          apply sinv_skip; auto; discriminate.
        * rewrite (r_go op D _ 0 s s _ _ 0 (Err x) (Err x) eq_refl), (r_lock op D _ s _ _ _ _ (Err x) s [Err x] eq_refl).
          exists s, (0 :: ow). split; auto. intro M'. destruct (TM (Err x) eq_refl M').
        * rewrite (r_more op D _ 0 s (SwitchS (0 :: sw_gone s) (sw_last s) (sw_subs s)) _ _ 0 Done eq_refl).
          set (s2 := SwitchS (0 :: sw_gone s) (sw_last s) (sw_subs s)).
          assert (I2 : sinv s2 ow (lh ++ [(0, Done)])).
          { assert (O : opened (lh ++ [(0, Done)]) = opened lh) by (rewrite opened_app, opened_one; cbn; lia).
            assert (C : forall j, j <> 0 -> completed j (lh ++ [(0, Done)]) = completed j lh /\ endedb j (lh ++ [(0, Done)]) = endedb j lh).
            { intros j J. rewrite completed_app, endedb_app, completed_one, endedb_one. destruct (Nat.eqb_spec 0 j); [lia|]. now rewrite !orb_false_r. }
            assert (C0 : completed 0 (lh ++ [(0, Done)]) = true /\ endedb 0 (lh ++ [(0, Done)]) = true).
            { rewrite completed_app, endedb_app, completed_one, endedb_one. cbn. now rewrite !orb_true_r. }
            unfold sinv. rewrite O. cbn [sw_subs sw_last s2]. repeat split; auto.
            - intro j. unfold sw_is_gone, gone_spec. cbn [s2 sw_gone existsb]. rewrite O. specialize (E3 j). unfold sw_is_gone, gone_spec in E3.
              rewrite E3. clear E3. destruct (Nat.eqb_spec j 0) as [JZ|NZ]; [subst j|]; cbn [orb]; [symmetry; apply C0|].
              destruct (j <? opened lh); auto. symmetry. now apply C.
            - intros j J. destruct (C j ltac:(lia)) as [_ ->]. now apply E4.
            - destruct C0 as [-> ->]. reflexivity.
            - destruct (Nat.eq_dec (opened lh) 0) as [->|NZ]; [destruct C0 as [-> ->]; reflexivity|]. destruct (C _ NZ) as [-> ->]. exact E6. }
          assert (O : opened (lh ++ [(0, Done)]) = opened lh) by (rewrite opened_app, opened_one; cbn; lia).
          pose proof (all_gone_spec _ _ _ I2) as AG. rewrite O in AG. rewrite <- AG. destruct (sw_all_gone s2) eqn:Q.
          -- erewrite (r_go op D _ 1 s2 s2 _ _ 0 Done Done) by (cbn [mo_pre switch_op Nat.eqb]; rewrite Q; reflexivity).
             rewrite (r_lock op D _ s2 _ _ _ _ Done s2 [Done] eq_refl).
             exists s2, (0 :: ow). split; [reflexivity|]. intro M'. destruct (TM Done eq_refl M').
          -- erewrite (r_ret op D _ 1 s2 s2 _ _ 0 Done) by (cbn [mo_pre switch_op Nat.eqb]; rewrite Q; reflexivity).
             exists s2, (0 :: ow). split; auto.
    - (* current inner *)
      unfold gone_spec in G. rewrite (proj2 (Nat.eqb_neq i 0) Z) in G. rewrite Z2, Nat.ltb_irrefl, <- Z2 in G.
      assert (EG : endedb i lh = completed i lh) by (rewrite Z2; exact E6). rewrite <- EG in G.
      destruct (endedb i lh) eqn:EN.
      + rewrite r_gate by auto. exists s, ow. rewrite app_nil_r. auto.
      + rewrite r_pass by auto. unfold switch_out. rewrite <- Z2, Nat.eqb_refl, orb_true_r.
        pose proof (proj2 (Nat.eqb_neq i 0) Z) as ZB. rewrite ZB. cbn [orb].
        destruct e as [[u|v]|x|].
        * erewrite (r_ret op D _ 0 s s _ _ i (Next (inl u))) by (cbn [mo_pre switch_op]; now rewrite ZB). exists s, ow. split; auto. intros _.
          apply sinv_skip; auto; discriminate.
        * erewrite (r_go op D _ 0 s s _ _ i (Next (inr v)) (Next v)) by (cbn [mo_pre switch_op]; now rewrite ZB).
          rewrite (r_lock op D _ s _ _ _ _ (Next v) s [Next v] eq_refl). exists s, ow. split; auto. intros _.
          apply sinv_skip; auto; discriminate.
        * rewrite (r_go op D _ 0 s s _ _ i (Err x) (Err x) eq_refl), (r_lock op D _ s _ _ _ _ (Err x) s [Err x] eq_refl).
          exists s, (i :: ow). split; auto. intro M'. destruct (TM (Err x) eq_refl M').
        * rewrite (r_more op D _ 0 s (SwitchS (i :: sw_gone s) (sw_last s) (sw_subs s)) _ _ i Done eq_refl).
          set (s2 := SwitchS (i :: sw_gone s) (sw_last s) (sw_subs s)).
          assert (O : opened (lh ++ [(i, Done)]) = opened lh) by (rewrite opened_app, opened_one, andb_false_r; lia).
          assert (C : forall j, completed j (lh ++ [(i, Done)]) = completed j lh || (i =? j) /\ endedb j (lh ++ [(i, Done)]) = endedb j lh || (i =? j)).
          { intro j. rewrite completed_app, endedb_app, completed_one, endedb_one. cbn [is_term]. now rewrite andb_true_r. }
          assert (I2 : sinv s2 ow (lh ++ [(i, Done)])).
          { unfold sinv. rewrite O. cbn [sw_subs sw_last s2]. repeat split; auto.
            - intro j. unfold sw_is_gone, gone_spec. cbn [s2 sw_gone existsb]. rewrite O. specialize (E3 j). unfold sw_is_gone, gone_spec in E3.
              rewrite E3. clear E3. destruct (C j) as [-> _]. rewrite (Nat.eqb_sym i j). destruct (Nat.eqb_spec j 0) as [JZ|NZ]; [subst j|].
              + destruct (C 0) as [-> _]. rewrite ZB. rewrite Nat.eqb_sym, ZB. now rewrite orb_false_r.
              + destruct (j <? opened lh); [apply orb_true_r | apply orb_comm].
            - intros j J. destruct (C j) as [_ ->]. rewrite E4 by auto. cbn. apply Nat.eqb_neq. lia.
            - destruct (C 0) as [-> ->]. now rewrite E5.
            - destruct (C (opened lh)) as [-> ->]. now rewrite E6. }
          pose proof (all_gone_spec _ _ _ I2) as AG. rewrite O in AG.
          rewrite <- Z2, ZB in AG. cbn [orb] in AG. rewrite <- AG. destruct (sw_all_gone s2) eqn:Q.
          -- erewrite (r_go op D _ 1 s2 s2 _ _ i Done Done) by (cbn [mo_pre switch_op Nat.eqb]; rewrite Q; reflexivity).
             rewrite (r_lock op D _ s2 _ _ _ _ Done s2 [Done] eq_refl).
             exists s2, (i :: ow). split; [reflexivity|]. intro M'. destruct (TM Done eq_refl M').
          -- erewrite (r_ret op D _ 1 s2 s2 _ _ i Done) by (cbn [mo_pre switch_op Nat.eqb]; rewrite Q; reflexivity).
             exists s2, (i :: ow). split; auto.
    - (* replaced inner *)
      assert (GT : gone_spec lh i = true).
      { unfold gone_spec. rewrite (proj2 (Nat.eqb_neq i 0) Z). now rewrite (proj2 (Nat.ltb_lt _ _)) by lia. }
      rewrite GT in G. rewrite r_gate by auto.
      assert (OUT : (if endedb i lh then [] else out lh i e) = []).
      { destruct (endedb i lh); auto. unfold switch_out. rewrite (proj2 (Nat.eqb_neq i 0) Z), (proj2 (Nat.eqb_neq i _) Z2). reflexivity. }
      rewrite OUT. exists s, ow. split; auto. intros _. destruct (endedb i lh); [now rewrite app_nil_r|].
      apply sinv_skip; auto. intro. congruence.
  Qed.

  Lemma sinv_init : sinv (mo_init op) [] [].
  Proof.
    unfold sinv. cbn. repeat split; auto. intro i. unfold gone_spec. cbn. destruct (i =? 0); auto.
  Qed.

  Theorem switch_seq : forall h g, seq_run op D (fun _ => []) (g_init op D d0) h = Some g ->
    g_lock g = false /\ g_down g = mrun D d0 (outs out h).
  Proof.
    intros h g H. destruct (seq_inv op D L d0 _ _ sinv_init switch_step h g H) as (E1 & E2 & _). auto.
  Qed.
  (** No event of an existing source blocks. *)
  Theorem switch_seq_some : forall h g i e, seq_run op D (fun _ => []) (g_init op D d0) h = Some g ->
    mdisp D (g_down g) = false -> i <= opened (live h) ->
    exists g', seq_run op D (fun _ => []) (g_init op D d0) (h ++ [(i, e)]) = Some g'.
  Proof.
    intros h g i e H M Li. destruct (seq_inv op D L d0 _ _ sinv_init switch_step h g H) as (E1 & E2 & E3).
    eapply seq_next with (INV := sinv); eauto; [exact sinv_init | exact switch_step|].
    destruct (E3 M) as (S1 & _). cbn. rewrite S1. now apply Nat.leb_le.
  Qed.
End SeqSwitch.
