(** The fixed-capacity container refines a bounded list. *)
From Verif Require Import Base StaticSpec StaticModel.

Lemma put_mid : forall a x b c, put (a ++ x :: b) (length a) c = a ++ c :: b.
Proof. induction a; cbn; intros; congruence. Qed.
Lemma nth_mid : forall A (a : list A) x b, nth_error (a ++ x :: b) (length a) = Some x.
Proof. induction a; cbn; auto. Qed.

Lemma put_mid' : forall k a x b c, length a = k -> put (a ++ x :: b) k c = a ++ c :: b.
Proof. intros; subst; apply put_mid. Qed.
Lemma nth_mid' : forall A k (a : list A) x b, length a = k -> nth_error (a ++ x :: b) k = Some x.
Proof. intros; subst; apply nth_mid. Qed.

Lemma shift_ok : forall b a X r, (X = Moved \/ exists d, X = Live d) ->
  c_shift (a ++ X :: map Live b ++ r) (length a + 1) (length b) =
  Some (a ++ map Live b ++ (match b with [] => X | _ => Moved end) :: r).
Proof.
  induction b as [|d b IH]; intros a X r HX; cbn [map app length c_shift]; auto.
  replace (length a + 1 - 1) with (length a) by lia.
  rewrite nth_mid.
  assert (N: nth_error (a ++ X :: Live d :: map Live b ++ r) (length a + 1) = Some (Live d)).
  { replace (a ++ X :: Live d :: map Live b ++ r) with ((a ++ [X]) ++ Live d :: map Live b ++ r) by now rewrite <- app_assoc.
    replace (length a + 1) with (length (a ++ [X])) by (rewrite app_length; cbn; lia). apply nth_mid. }
  rewrite N.
  rewrite put_mid.
  replace (a ++ Live d :: Live d :: map Live b ++ r) with ((a ++ [Live d]) ++ Live d :: map Live b ++ r) by now rewrite <- app_assoc.
  replace (length a + 1) with (length (a ++ [Live d])) by (rewrite app_length; cbn; lia).
  rewrite put_mid.
  replace (S (length (a ++ [Live d]))) with (length (a ++ [Live d]) + 1) by lia.
  destruct HX as [->|[x ->]]; rewrite (IH (a ++ [Live d]) Moved r) by auto; rewrite <- app_assoc; cbn; destruct b; reflexivity.
Qed.

Lemma remove_ok : forall d b a m fuel, length b < fuel ->
  c_remove_loop fuel (Cont (map Live (a ++ b) ++ repeat Raw m) (length a + length b)) (length a) d =
  Some (Cont (map Live (a ++ filter (fun x => negb (x =? d)) b) ++
              repeat Raw (m + (length b - length (filter (fun x => negb (x =? d)) b))))
             (length a + length (filter (fun x => negb (x =? d)) b))).
Proof.
  intros d b a m fuel. revert b a m. induction fuel as [|f IH]; intros b a m F; [lia|].
  cbn [c_remove_loop c_size c_data]. destruct b as [|e b].
  - rewrite Nat.add_0_r, Nat.ltb_irrefl. cbn. now rewrite !Nat.add_0_r.
  - cbn [length] in *. replace (length a <? length a + S (length b)) with true by (symmetry; apply Nat.ltb_lt; lia).
    rewrite map_app, <- app_assoc. cbn [map app].
    replace (nth_error (map Live a ++ Live e :: map Live b ++ repeat Raw m) (length a)) with (Some (Live e))
      by (rewrite <- (map_length Live a); symmetry; apply nth_mid).
    cbn [filter]. destruct (negb (e =? d)) eqn:E.
    + replace (map Live a ++ Live e :: map Live b ++ repeat Raw m) with (map Live ((a ++ [e]) ++ b) ++ repeat Raw m)
        by (rewrite !map_app, <- !app_assoc; reflexivity).
      replace (length a + S (length b)) with (length (a ++ [e]) + length b) by (rewrite app_length; cbn; lia).
      replace (S (length a)) with (length (a ++ [e])) by (rewrite app_length; cbn; lia).
      rewrite IH by lia. rewrite <- app_assoc. cbn [app length]. do 2 f_equal.
      rewrite app_length. cbn. lia.
    + replace (length a + 1) with (length (map Live a) + 1) by now rewrite map_length.
      replace (length a + S (length b) - (length (map Live a) + 1)) with (length b) by (rewrite map_length; lia).
      rewrite shift_ok by eauto.
      set (X := match b with [] => Live e | _ => Moved end).
      replace (map Live a ++ map Live b ++ X :: repeat Raw m) with ((map Live a ++ map Live b) ++ X :: repeat Raw m) by now rewrite <- app_assoc.
      replace (length a + S (length b) - 1) with (length (map Live a ++ map Live b)) by (rewrite app_length, !map_length; lia).
      rewrite nth_mid, put_mid.
      assert (IH': c_remove_loop f (Cont ((map Live a ++ map Live b) ++ Raw :: repeat Raw m) (length (map Live a ++ map Live b))) (length a) d =
        Some (Cont (map Live (a ++ filter (fun x => negb (x =? d)) b) ++
              repeat Raw (S m + (length b - length (filter (fun x => negb (x =? d)) b))))
             (length a + length (filter (fun x => negb (x =? d)) b)))).
      { rewrite <- map_app. change (Raw :: repeat Raw m) with (repeat Raw (S m)). rewrite map_length, app_length. apply IH. lia. }
      assert (FL: length (filter (fun x => negb (x =? d)) b) <= length b).
      { clear. induction b as [|x b IH]; cbn; auto. destruct (negb (x =? d)); cbn; lia. }
      replace (m + (S (length b) - length (filter (fun x : nat => negb (x =? d)) b)))
        with (S m + (length b - length (filter (fun x : nat => negb (x =? d)) b))) by lia.
      unfold X. destruct b; exact IH'.
Qed.

Lemma dispose_ok : forall b a r, c_dispose_loop (map Live a ++ map Live b ++ r) (length a) (length b) = Some b.
Proof.
  induction b as [|d b IH]; intros a r; cbn; auto.
  rewrite <- (map_length Live a), nth_mid.
  replace (map Live a ++ Live d :: map Live b ++ r) with (map Live (a ++ [d]) ++ map Live b ++ r)
    by (rewrite map_app, <- app_assoc; reflexivity).
  replace (S (length (map Live a))) with (length (a ++ [d])) by (rewrite app_length, map_length; cbn; lia).
  now rewrite IH.
Qed.

Lemma clear_ok : forall b k r, (forall x, In x b -> x <> Raw) ->
  c_clear_loop (repeat Raw k ++ b ++ r) k (length b) = Some (repeat Raw (k + length b) ++ r).
Proof.
  induction b as [|d b IH]; intros k r H; cbn.
  - now rewrite Nat.add_0_r.
  - rewrite nth_mid', put_mid' by apply repeat_length.
    assert (D: d <> Raw) by (apply H; now left).
    replace (repeat Raw k ++ Raw :: b ++ r) with (repeat Raw (S k) ++ b ++ r).
    2:{ cbn [repeat]. rewrite repeat_cons, <- app_assoc. reflexivity. }
    rewrite IH by (intros; apply H; now right).
    replace (k + S (length b)) with (S k + length b) by lia. destruct d; congruence.
Qed.

Definition Rep (count : nat) (l : list nat) (c : cont) : Prop :=
  length l <= count /\ c = Cont (map Live l ++ repeat Raw (count - length l)) (length l).

Lemma rep_elems : forall count l c, Rep count l c -> c_elems c = l.
Proof.
  intros count l c [_ ->]. unfold c_elems. cbn.
  rewrite firstn_app, map_length, Nat.sub_diag, firstn_O, app_nil_r.
  rewrite <- (map_length Live l) at 1. rewrite firstn_all. clear. induction l; cbn; congruence.
Qed.

Lemma rep_push : forall count l c d, Rep count l c ->
  if length l <? count then exists c', c_push count c d = Fine c' /\ Rep count (l ++ [d]) c'
  else c_push count c d = Full c.
Proof.
  intros count l c d [L ->]. unfold c_push. cbn [c_size c_data].
  destruct (Nat.ltb_spec (length l) count) as [H|H].
  - replace (count <=? length l) with false by (symmetry; apply Nat.leb_gt; lia).
    replace (count - length l) with (S (count - S (length l))) by lia. cbn [repeat].
    rewrite nth_mid' by apply map_length.
    eexists; split; [reflexivity|]. split; [rewrite app_length; cbn; lia|].
    rewrite put_mid' by apply map_length. rewrite map_app, <- app_assoc.
    rewrite app_length. cbn. f_equal; [|lia]. do 3 f_equal. lia.
  - replace (count <=? length l) with true by (symmetry; apply Nat.leb_le; lia). reflexivity.
Qed.

Lemma rep_remove : forall count l c d, Rep count l c ->
  exists c', c_remove c d = Fine c' /\ Rep count (filter (fun x => negb (x =? d)) l) c'.
Proof.
  intros count l c d [L ->]. unfold c_remove. cbn [c_size].
  pose proof (remove_ok d l [] (count - length l) (S (length l)) (le_n _)) as R. cbn [app length Nat.add] in R.
  rewrite R. eexists. split; [reflexivity|].
  assert (FL: length (filter (fun x => negb (x =? d)) l) <= length l).
  { clear. induction l as [|x b IH]; cbn; auto. destruct (negb (x =? d)); cbn; lia. }
  split; [lia|]. do 3 f_equal. lia.
Qed.

Lemma rep_dispose : forall count l c, Rep count l c -> c_dispose c = Some l.
Proof. intros count l c [L ->]. unfold c_dispose. cbn. apply (dispose_ok l []). Qed.

Lemma rep_clear : forall count l c, Rep count l c -> exists c', c_clear c = Fine c' /\ Rep count [] c'.
Proof.
  intros count l c [L ->]. unfold c_clear. cbn [c_data c_size].
  pose proof (clear_ok (map Live l) 0 (repeat Raw (count - length l))) as C. cbn [repeat app] in C.
  rewrite map_length in C. rewrite C by (intros x H; apply in_map_iff in H as (? & <- & _); discriminate).
  eexists. split; [reflexivity|]. split; [cbn; lia|]. cbn. rewrite <- repeat_app. do 2 f_equal. lia.
Qed.

Definition b_op (count : nat) (b : bstate) (o : cop) : bstate :=
  match o with
  | CPush d => b_push count b d
  | CRemove d => b_remove b d
  | CDisposeAll => b_dispose b
  | CClear => b_clear b
  end.

Lemma container_rep : forall count ops,
  exists c, c_run count ops = Some (c, b_disposed (fold_left (b_op count) ops (BState [] [] [])),
                                       b_oks (fold_left (b_op count) ops (BState [] [] []))) /\
            Rep count (b_elems (fold_left (b_op count) ops (BState [] [] []))) c.
Proof.
  intros count ops.
  assert (G: forall ops c b, Rep count (b_elems b) c ->
    exists c', fold_left (c_op count) ops (Some (c, b_disposed b, b_oks b)) =
       Some (c', b_disposed (fold_left (b_op count) ops b), b_oks (fold_left (b_op count) ops b)) /\
       Rep count (b_elems (fold_left (b_op count) ops b)) c').
  { clear ops. induction ops as [|o ops IH]; intros c b R; cbn [fold_left]; [eauto|].
    destruct o as [d|d| |]; cbn [c_op b_op].
    - pose proof (rep_push _ _ _ d R) as P. unfold b_push. destruct (length (b_elems b) <? count).
      + destruct P as (c' & -> & R'). apply (IH c' (BState (b_elems b ++ [d]) _ _) R').
      + rewrite P. apply (IH c (BState (b_elems b) _ _) R).
    - destruct (rep_remove _ _ _ d R) as (c' & -> & R'). apply (IH c' (b_remove b d) R').
    - rewrite (rep_dispose _ _ _ R). apply (IH c (b_dispose b) R).
    - destruct (rep_clear _ _ _ R) as (c' & -> & R'). apply (IH c' (b_clear b) R'). }
  destruct (G ops (cont_init count) (BState [] [] [])) as (c & E & R).
  { split; [cbn; lia|]. cbn. now rewrite Nat.sub_0_r. }
  exists c. split; auto.
Qed.

Lemma run_rep : forall count ops, exists l c d o, c_run count ops = Some (c, d, o) /\ Rep count l c.
Proof. intros count ops. destruct (container_rep count ops) as (c & E & R). eauto 7. Qed.

Theorem container_refines : forall count ops,
  exists c, c_run count ops = Some (c, b_disposed (fold_left (b_op count) ops (BState [] [] [])),
                                       b_oks (fold_left (b_op count) ops (BState [] [] []))) /\
            c_elems c = b_elems (fold_left (b_op count) ops (BState [] [] [])).
Proof.
  intros count ops. destruct (container_rep count ops) as (c & E & R). exists c. split; auto. eapply rep_elems; eauto.
Qed.

(** Moving into an empty container. *)
Lemma move_ok_loop : forall b a k, c_move_loop (map Live a ++ repeat Raw (length b + k)) (repeat Moved (length a) ++ map Live b ++ repeat Raw k) (length a) (length b)
  = Some (map Live (a ++ b) ++ repeat Raw k, repeat Moved (length a + length b) ++ repeat Raw k).
Proof.
  induction b as [|d b IH]; intros a k; cbn.
  - now rewrite app_nil_r, Nat.add_0_r.
  - rewrite !nth_mid', !put_mid' by (apply map_length || apply repeat_length).
    specialize (IH (a ++ [d]) k). rewrite map_app, app_length in IH. cbn [map length] in IH.
    rewrite <- !app_assoc in IH. cbn [app] in IH.
    replace (length a + 1) with (S (length a)) in IH by lia.
    replace (repeat Moved (length a) ++ Moved :: map Live b ++ repeat Raw k) with (repeat Moved (S (length a)) ++ map Live b ++ repeat Raw k).
    2:{ cbn [repeat]. rewrite repeat_cons, <- app_assoc. reflexivity. }
    rewrite IH. do 3 f_equal. f_equal. lia.
Qed.

Theorem move_into_empty : forall count l c, Rep count l c ->
  exists c1 c2, c_move (cont_init count) c = Fine (c1, c2) /\ c_elems c1 = l /\ c_elems c2 = [].
Proof.
  intros count l c [L ->]. unfold c_move, cont_init. cbn [c_data c_size].
  pose proof (move_ok_loop l [] (count - length l)) as M. cbn [map app length repeat Nat.add] in M.
  replace (length l + (count - length l)) with count in M by lia. rewrite M.
  unfold c_clear. cbn [c_data c_size].
  pose proof (clear_ok (repeat Moved (length l)) 0 (repeat Raw (count - length l))) as C. cbn [repeat app Nat.add] in C.
  rewrite repeat_length in C. rewrite C by (intros x H; apply repeat_spec in H; congruence).
  eexists. eexists. split; [reflexivity|]. split; [|reflexivity].
  apply (rep_elems count). split; auto.
Qed.
