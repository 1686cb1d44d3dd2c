(** C08: at most once, exactly once. *)
From Coq Require Import Permutation.
From Verif Require Import Base Concur OnceModel.

Definition is_run (it : once_item) : bool := match it with ORun => true | _ => false end.
Definition is_lrun (l : once_label) : bool := match l with OLRun => true | _ => false end.
Definition once_inv (s : once_state) (l : list once_item) (tr : list once_label) : Prop :=
  count is_run l + count is_lrun tr = (if s then 1 else 0) /\
  (s = false -> ~ In ORet l /\ tr = []).

Lemma once_step_inv : forall n s it l tr s' its ls,
  once_inv s (it :: l) tr -> once_step n s it = Some (s', its, ls) -> once_inv s' (its ++ l) (tr ++ ls).
Proof.
  unfold once_inv. intros n s it l tr s' its ls [C R] E.
  rewrite count_cons in C. rewrite !count_app.
  destruct it; cbn in E.
  - destruct s; inversion E; subst; rewrite ?count_cons, ?count_nil; cbn in *; split; try lia; discriminate.
  - inversion E; subst. rewrite ?count_cons, ?count_nil. cbn in *.
    assert (Z: count is_run (repeat OCall n) = 0) by (apply count_zero_of; intros x H; apply repeat_spec in H; now subst).
    split; [destruct s'; lia|]. intros ->. exfalso. lia.
  - inversion E; subst. rewrite ?count_cons, ?count_nil. cbn in *. split; [destruct s'; lia|].
    intros ->. destruct (R eq_refl) as [X _]. exfalso. apply X. now left.
Qed.

Lemma once_reach : forall n threads tr c, gexec (once_step n) (once_init threads) tr c ->
  once_inv (fst c) (concat (snd c)) tr.
Proof.
  intros n threads tr c E.
  refine (gexec_inv _ once_inv _ (once_step_inv n) _ _ _ E _).
  - unfold once_inv. intros s l l' t P [A B]. rewrite <- (count_perm _ _ _ P). split; auto.
    intro F. destruct (B F) as [X Y]. split; auto. intro Z. apply X. eapply Permutation_in; [symmetry|]; eauto.
  - assert (Z: forall x, In x (concat (snd (once_init threads))) -> x = OCall).
    { intros x H. apply in_concat in H as (t & H1 & H2). cbn in H1. apply in_map_iff in H1 as (k & <- & _).
      now apply repeat_spec in H2. }
    split.
    + rewrite count_zero_of; [reflexivity|]. intros x H. now rewrite (Z x H).
    + intros _. split; auto. intro H. apply Z in H. discriminate.
Qed.

Theorem once_at_most : forall n threads tr c, gexec (once_step n) (once_init threads) tr c ->
  count is_lrun tr <= 1.
Proof. intros n threads tr c E. destruct (once_reach _ _ _ _ E) as [C _]. destruct (fst c); lia. Qed.

Theorem once_exactly : forall n threads tr c, gexec (once_step n) (once_init threads) tr c ->
  gfinished c -> In OLRet tr -> count is_lrun tr = 1.
Proof.
  intros n threads tr c E F I. destruct (once_reach _ _ _ _ E) as [C R].
  rewrite gfinished_concat, count_nil in C by auto.
  destruct (fst c); [lia|]. destruct (R eq_refl) as [_ ->]. destruct I.
Qed.

