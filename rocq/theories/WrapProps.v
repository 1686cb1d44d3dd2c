(** Lifetime of disposables (C70); references that outlive their disposal (C71). *)
From Verif Require Import Base WrapSpec WrapModel WrapProofs.

(** ** C70 *)

(** When a call has returned, whatever nobody owns any more has been disposed. *)
Theorem C70_last_owner_disposes : forall vars prog n s tr o,
  wsteps n (w_init vars prog) = (s, tr) -> w_todo s = [] -> o < w_n s -> ~ owned s o -> In (EDisp o) tr.
Proof.
  intros vars prog n s tr o E T L N. destruct (run_inv _ _ _ _ _ E) as (A & B & C).
  destruct (not_owned_gone _ _ _ A B C T L N) as (_ & D). apply disposals_in. rewrite (d_once _ _ C), D. lia.
Qed.
Print Assumptions C70_last_owner_disposes.

(** At most once, through any number of wrappers, composites and references. *)
Theorem C70_once : forall vars prog n s tr o,
  wsteps n (w_init vars prog) = (s, tr) -> disposals tr o <= 1.
Proof.
  intros vars prog n s tr o E. destruct (run_inv _ _ _ _ _ E) as (A & B & C). rewrite (d_once _ _ C). destruct (w_disp s o); lia.
Qed.
Print Assumptions C70_once.

(** Never without a reason: the user's call, the last owner, a refused add, or a composite
    it was added to. *)
Theorem C70_reason : forall vars prog n s tr o,
  wsteps n (w_init vars prog) = (s, tr) -> In (EDisp o) tr -> reason tr o.
Proof.
  intros vars prog n s tr o E I. destruct (run_inv _ _ _ _ _ E) as (A & B & C). apply (d_reason _ _ C).
  apply disp_in in I. rewrite (d_once _ _ C) in I. destruct (w_disp s o); auto. lia.
Qed.
Print Assumptions C70_reason.

(** Where there is a reason, it happens before the call returns: dispose by the user, a
    refused add; and what was put into a composite goes with it, unless it was removed. *)
Theorem C70_asked_disposed : forall vars prog n s tr o,
  wsteps n (w_init vars prog) = (s, tr) -> w_todo s = [] -> In (EUser o) tr \/ In (ERefused o) tr -> In (EDisp o) tr.
Proof.
  intros vars prog n s tr o E T H. destruct (run_inv _ _ _ _ _ E) as (A & B & C). pose proof (run_EI _ _ _ _ _ E) as [E1 E2].
  eapply SD_end; eauto. destruct H; auto.
Qed.
Print Assumptions C70_asked_disposed.
Theorem C70_children_disposed : forall vars prog n s tr p o,
  (forall v w, ~ In (ORemove v w) prog) ->
  wsteps n (w_init vars prog) = (s, tr) -> w_todo s = [] -> In (EAdd p o) tr -> In (EDisp p) tr -> In (EDisp o) tr.
Proof.
  intros vars prog n s tr p o H E T I D. destruct (run_inv _ _ _ _ _ E) as (A & B & C).
  destruct (run_AI _ _ _ _ _ H E p o I) as [(Q & _)|Q]; [|eapply SD_end; eauto].
  apply disp_in in D. rewrite (d_once _ _ C), Q in D. lia.
Qed.
Print Assumptions C70_children_disposed.

(** The object itself lives as long as somebody owns it. *)
Theorem C70_owned_alive : forall vars prog n s tr o,
  wsteps n (w_init vars prog) = (s, tr) -> owned s o -> ~ In (ELast o) tr.
Proof. intros vars prog n s tr o E W. destruct (run_inv _ _ _ _ _ E) as (A & B & C). eapply owned_alive; eauto. Qed.
Print Assumptions C70_owned_alive.

(** A reference that owns its source keeps it alive until the reference is disposed. *)
Theorem C70_source_kept : forall vars prog n s tr o r,
  wsteps n (w_init vars prog) = (s, tr) -> In (ERef o r false) tr -> ~ In (EDisp o) tr -> ~ In (ELast r) tr.
Proof.
  intros vars prog n s tr o r E I D. destruct (run_inv _ _ _ _ _ E) as (A & B & C). pose proof (run_MI _ _ _ _ _ E) as [M1 M2 M3].
  destruct (M2 o r I) as [Z|Z].
  - exfalso. apply D. apply disposals_in. rewrite (d_once _ _ C), Z. lia.
  - eapply owned_alive; eauto. right. right. eauto.
Qed.
Print Assumptions C70_source_kept.
(** In the other mode the source keeps the reference alive until the source is disposed. *)
Theorem C70_reference_kept_alive : forall vars prog n s tr o r,
  (forall v w, ~ In (ORemove v w) prog) ->
  wsteps n (w_init vars prog) = (s, tr) -> In (ERef o r true) tr -> ~ In (EDisp r) tr -> ~ In (ELast o) tr.
Proof.
  intros vars prog n s tr o r H E I D. destruct (run_inv _ _ _ _ _ E) as (A & B & C). pose proof (run_TI _ _ _ _ _ H E) as [T1 T2].
  assert (O : owned s o); [|eapply owned_alive; eauto].
  destruct (T2 o r I) as [Z|[Z|(l & _ & _ & _ & Z)]].
  - exfalso. apply D. apply disposals_in. rewrite (d_once _ _ C), Z. lia.
  - right. left. exists r. split; auto. destruct (le_lt_dec (w_n s) r) as [Q|Q]; auto. rewrite (g_kids0 _ A r Q) in Z. destruct Z.
  - left. auto.
Qed.
Print Assumptions C70_reference_kept_alive.

(** Every call returns, however the disposables are linked. *)
Theorem C70_settles : forall vars prog, exists n, w_todo (fst (wsteps n (w_init vars prog))) = [].
Proof. intros. apply run_end. Qed.
Print Assumptions C70_settles.

(** Two composites that contain each other, one of them through an owning wrapper, and a
    reference that outlives the variable of its source. *)
Definition c70_prog : list wop :=
  [OMake 0; OMake 1; OAdd 0 1; OWeak 2 0; OAdd 1 2; OAddRef 3 0 false; OReset 0; OReset 1; ODispose 3; OReset 3; OMake 0; OAdd 2 0].
Example C70_case :
  let r := wsteps 100 (w_init 4 c70_prog) in
  w_todo (fst r) = [] /\
  snd r = [EAdd 0 1; EAdd 1 0; ERef 2 0 false; EAdd 0 2; EUser 2; EDisp 2; ELast 0; EDisp 0; EDisp 1; ELast 1; ELast 2; ERefused 3; EDisp 3] /\
  owned (fst r) 3.
Proof. split; [|split]; [vm_compute; reflexivity|vm_compute; reflexivity|]. left. vm_compute. auto. Qed.

(** ** C71 *)

(** A reference kept by its source stays there until the source is disposed, unless the
    user removes it: its own disposal does not take it out. *)
Theorem C71_reference_kept : forall vars prog n m s s' tr tr' p o,
  (forall v w, ~ In (ORemove v w) prog) ->
  wsteps n (w_init vars prog) = (s, tr) -> wsteps m s = (s', tr') ->
  In (WStrong o) (w_kids s p) -> w_disp s' p = false -> In (WStrong o) (w_kids s' p).
Proof.
  intros vars prog n m s s' tr tr' p o H E1 E2 I D. destruct (run_inv _ _ _ _ _ E1) as (A & B & C).
  destruct (init_inv vars prog) as (A0 & B0 & C0). pose proof (KI_steps _ _ _ _ _ A0 B0 C0 (KI_init vars prog H) E1) as K.
  exact (kept_steps _ _ _ _ _ _ _ A B C K E2 I D).
Qed.
Print Assumptions C71_reference_kept.

(** n references, each disposed and given up before the next is made. *)
Definition one_ref (strong : bool) : list wop := [OAddRef 1 0 strong; ODispose 1; OReset 1].
Definition refs (strong : bool) (n : nat) : list wop := concat (repeat (one_ref strong) n).

Definition reach (s s' : ws) : Prop := exists n, fst (wsteps n s) = s'.
Lemma reach_0 : forall s, reach s s.
Proof. intro s. now exists 0. Qed.
Lemma reach_step : forall s a r s1 l e s', w_todo s = a :: r -> wexec s a = (s1, l, e) -> reach (wwith s1 (l ++ r)) s' -> reach s s'.
Proof.
  intros s a r s1 l e s' T X (n & N). exists (S n). cbn [wsteps]. unfold wstep. rewrite T, X. fold (wwith s1 (l ++ r)).
  destruct (wsteps n _) eqn:W. exact N.
Qed.
Lemma reach_trans : forall a b c, reach a b -> reach b c -> reach a c.
Proof. intros a b c (n & N) (m & M). exists (n + m). rewrite wsteps_add, N. exact M. Qed.

Record strong_after (m : nat) (s : ws) : Prop := MkSA {
  sa_slots : w_slots s = [WStrong 0; WEmpty];
  sa_n : w_n s = S m;
  sa_c : w_cnt s 0 = 1;
  sa_g : forall o, w_gone s o = false;
  sa_d : forall o, w_disp s o = ((1 <=? o) && (o <=? m))%bool;
  sa_k : w_kids s 0 = map WStrong (seq 1 m);
  sa_k1 : forall p, m < p -> w_kids s p = []
}.


Lemma same_none : forall s l, (forall x, In x l -> exists o, x = WStrong o /\ w_gone s o = false) ->
  filter (fun x => same_target s x WEmpty) l = [] /\ filter (fun x => negb (same_target s x WEmpty)) l = l.
Proof.
  intros s. induction l as [|x l IH]; intro H; cbn; auto. destruct (H x) as (o & -> & G); [now left|].
  destruct IH as (I1 & I2); [intros; apply H; now right|]. assert (Z : same_target s (WStrong o) WEmpty = false) by (unfold same_target; cbn; now rewrite G).
  rewrite Z, I1, I2. auto.
Qed.
Ltac st E := eapply reach_step; [reflexivity|cbn; unfold upd; cbn; rewrite ?Nat.eqb_refl; cbn; E; reflexivity|]; unfold wwith; cbn.
Lemma strong_round : forall m s rest, strong_after m s -> w_todo s = map AUser (one_ref true) ++ rest ->
  exists s', reach s s' /\ strong_after (S m) s' /\ w_todo s' = rest.
Proof.
  intros m [sl n c g d k sf st td] rest [H1 H2 H3 H4 H5 H6 H7] T. cbn [w_slots w_n w_cnt w_gone w_disp w_kids w_todo] in *. subst sl n td.
  assert (D0 : d 0 = false) by (rewrite H5; reflexivity).
  assert (D1 : d (S m) = false). { rewrite H5. destruct (Nat.leb_spec (S m) m); [lia|]. now rewrite Bool.andb_false_r. }
  eexists. split; [|split].
  - st ltac:(rewrite H4).
    st ltac:(rewrite H4, D0, D1; cbn).
    st ltac:(rewrite ?H3).
    st idtac.
    st ltac:(rewrite H4).
    st ltac:(rewrite H4).
    st ltac:(rewrite D1).
    rewrite ?(H7 (S m)) by lia. cbn.
    st ltac:(rewrite H4).
    st ltac:(rewrite D0; unfold from_this; cbn; rewrite Nat.eqb_refl; cbn).
    match goal with |- context [filter (fun x => same_target ?t x ?w) ?l] => destruct (same_none t l) as (Z1 & Z2) end.
    { intros x I. apply in_app_or in I as [I|[<-|[]]]; [rewrite H6 in I; apply in_map_iff in I as (y & <- & _)|]; eexists; split; auto; apply H4. }
    rewrite Z1, Z2. clear Z1 Z2. cbn.
    st idtac.
    st idtac.
    st idtac.
    st idtac.
    rewrite ?(H7 (S m)) by lia. cbn.
    st idtac.
    st idtac.
    st idtac.
    apply reach_0.
  - split; cbn; auto.
    + intro o. destruct (Nat.eqb_spec o (S m)) as [->|N]; [now rewrite Nat.leb_refl|]. rewrite H5.
      destruct o as [|o]; auto. destruct (Nat.leb_spec (S o) m), (Nat.leb_spec (S o) (S m)); auto; lia.
    + rewrite H6. change (WStrong (S m)) with (WStrong (1 + m)). rewrite <- (map_app WStrong _ [1 + m]), <- seq_S. reflexivity.
    + intros p L. destruct (Nat.eqb_spec p (S m)); auto. destruct (Nat.eqb_spec p 0); [lia|]. apply H7. lia.
  - reflexivity.
Qed.
Lemma strong_rounds : forall n m s, strong_after m s -> w_todo s = map AUser (refs true n) ->
  exists s', reach s s' /\ strong_after (n + m) s' /\ w_todo s' = [].
Proof.
  induction n as [|n IH]; intros m s H T.
  - exists s. split; [apply reach_0|]. auto.
  - unfold refs in T. cbn [repeat concat] in T. rewrite map_app in T. destruct (strong_round m s _ H T) as (s1 & R & H1 & T1).
    destruct (IH (S m) s1 H1 T1) as (s2 & R2 & H2 & T2). exists s2. split; [eapply reach_trans; eauto|]. rewrite Nat.add_succ_r in H2. auto.
Qed.

(** n references that were disposed and given up, one after the other: their source, alive
    and held by one variable, still keeps all n of them. *)
Theorem C71_references_pile_up : forall n, exists k,
  let s := fst (wsteps k (w_init 2 (OMake 0 :: refs true n))) in
  w_todo s = [] /\ w_slots s = [WStrong 0; WEmpty] /\ w_disp s 0 = false /\
  length (w_kids s 0) = n /\ forall w, In w (w_kids s 0) -> exists o, w = WStrong o /\ w_disp s o = true.
Proof.
  intro n. set (s0 := fst (wsteps 2 (w_init 2 (OMake 0 :: refs true n)))).
  assert (H : strong_after 0 s0). { split; auto. intro o. destruct o; reflexivity. }
  destruct (strong_rounds n 0 s0 H eq_refl) as (s' & (k & K) & [H1 H2 H3 H4 H5 H6 H7] & T). exists (2 + k).
  rewrite wsteps_add. fold s0. rewrite K. cbv zeta. rewrite Nat.add_0_r in *. repeat split; auto.
  - rewrite H5. reflexivity.
  - rewrite H6, map_length, seq_length. auto.
  - intros w I. rewrite H6 in I. apply in_map_iff in I as (o & <- & I). apply in_seq in I. exists o. split; auto. rewrite H5.
    destruct (Nat.leb_spec 1 o), (Nat.leb_spec o n); auto; lia.
Qed.
Print Assumptions C71_references_pile_up.

(** So a disposed reference is not dropped by its source. *)
Theorem C71_disposed_reference_dropped_refuted :
  ~ (forall vars prog n s tr p o, wsteps n (w_init vars prog) = (s, tr) -> w_todo s = [] -> w_disp s p = false -> w_disp s o = true -> ~ In (WStrong o) (w_kids s p)).
Proof.
  intro H. destruct (wsteps 30 (w_init 2 (OMake 0 :: refs true 1))) as [s tr] eqn:E.
  assert (s = fst (wsteps 30 (w_init 2 (OMake 0 :: refs true 1)))) as -> by now rewrite E.
  refine (H 2 (OMake 0 :: refs true 1) 30 _ tr 0 1 E _ _ _ _); vm_compute; auto.
Qed.
Print Assumptions C71_disposed_reference_dropped_refuted.

(** The same with a reference its source does not own: only one entry is left over. *)
Example C71_case_weak :
  let s := fst (wsteps 300 (w_init 2 (OMake 0 :: refs false 5))) in w_todo s = [] /\ w_kids s 0 = [WWeak 5] /\ w_cnt s 0 = 1.
Proof. vm_compute. auto. Qed.
Example C71_case_strong :
  let s := fst (wsteps 300 (w_init 2 (OMake 0 :: refs true 5))) in w_todo s = [] /\ w_kids s 0 = map WStrong [1; 2; 3; 4; 5].
Proof. vm_compute. auto. Qed.
