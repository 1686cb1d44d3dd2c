(** C83: one subject feeds several branches which an operator combines again. *)
From Verif Require Import Base Machine MachineProofs ObserverSpec ObserverModel MultiSpec MultiModel MultiSeq MultiProps FairModel FairHist DiamSpec DiamModel DiamProofs.
Open Scope nat_scope.

(** The subject sends values and possibly one terminal event. *)
Definition at_most_one_end {V} (t : list (ev V)) : Prop := length t <= 1 /\ Forall (fun e => is_term e = true) t.

Theorem C83_merge : forall V A (f : nat -> V -> A) n (D : machine A) d0 vs t, lawful D -> mdisp D d0 = false -> at_most_one_end t ->
  exists g, seq_run (merge_op A) D (fun _ => []) (g_init _ D d0) (shared_merge f n (map Next vs ++ t)) = Some g /\
    g_lock g = false /\ g_down g = mrun D d0 (map Next (diamond_merge f n vs) ++ terminal t).
Proof.
  intros V A f n D d0 vs t L M (LT & T).
  assert (EX : exists g, seq_run (merge_op A) D (fun _ => []) (g_init _ D d0) (shared_merge f n (map Next vs ++ t)) = Some g).
  { pose proof (merge_shared_ids f n (map Next vs ++ t)) as I. unfold shared_merge in *. rewrite seq_run_app. destruct (merge_seq_opens A D (S n) (mo_init (merge_op A)) d0 M) as (s' & E & S1).
    unfold g_init. rewrite E. apply merge_seq_ids. intros i e H. specialize (I i e). rewrite in_app_iff in I. specialize (I (or_intror H)). lia. }
  destruct EX as (g & G). exists g. split; auto. destruct (merge_seq_inv A D d0 _ g L G) as (E1 & E2). split; auto. rewrite E2, merge_diamond by auto. now apply run_over.
Qed.
Print Assumptions C83_merge.

Theorem C83_zip : forall V A B (f : nat -> V -> A) n (g : list (option A) -> B) (D : machine B) d0 vs t, lawful D -> at_most_one_end t ->
  let op := zip_op (S n) (fun l => Ok (g l)) in
  exists st, seq_run op D (fun _ => []) (g_init op D d0) (shared_calls f (arguments_first n) (map Next vs ++ t)) = Some st /\
    g_lock st = false /\ g_down st = mrun D d0 (map Next (diamond_zip f n (fun l => g (map Some l)) vs) ++ terminal t).
Proof.
  intros V A B f n g D d0 vs t L (LT & T) op.
  destruct (C35_zip_sequential A B (S n) (fun l => Ok (g l)) D d0 (shared_calls f (arguments_first n) (map Next vs ++ t)) L) as (st & E & K & O).
  - eapply Forall_impl; [|apply ids_le]. intros. cbn beta in *. lia.
  - exists st. split; auto. split; auto. etransitivity; [exact O|]. rewrite zip_diamond by auto. now apply run_over.
Qed.
Print Assumptions C83_zip.

Theorem C83_with_latest_from : forall V A B (f : nat -> V -> A) n (g : A -> list A -> B) (D : machine B) d0 vs t, lawful D -> at_most_one_end t ->
  let op := with_latest_op n (fun v l => Ok (g v l)) in
  exists st, seq_run op D (fun _ => []) (g_init op D d0) (shared_calls f (arguments_first n) (map Next vs ++ t)) = Some st /\
    g_lock st = false /\ g_down st = mrun D d0 (map Next (diamond_latest f n g vs) ++ terminal t).
Proof.
  intros V A B f n g D d0 vs t L (LT & T) op.
  destruct (C37_with_latest_from_sequential A B n (fun v l => Ok (g v l)) D d0 (shared_calls f (arguments_first n) (map Next vs ++ t)) L) as (st & E & K & O); [apply ids_le|].
  exists st. split; auto. split; auto. etransitivity; [exact O|]. rewrite latest_diamond by auto. now apply run_over.
Qed.
Print Assumptions C83_with_latest_from.

Theorem C83_combine_latest : forall V A B (f : nat -> V -> A) n (g : list A -> B) (D : machine B) d0 vs t, lawful D -> at_most_one_end t ->
  let op := combine_latest_op (S n) (fun l => Ok (g l)) in
  exists st, seq_run op D (fun _ => []) (g_init op D d0) (shared_calls f (arguments_first n) (map Next vs ++ t)) = Some st /\
    g_lock st = false /\ g_down st = mrun D d0 (map Next (diamond_combine f n g vs) ++ terminal t).
Proof.
  intros V A B f n g D d0 vs t L (LT & T) op.
  destruct (C36_combine_latest_sequential A B (S n) (fun l => Ok (g l)) D d0 (shared_calls f (arguments_first n) (map Next vs ++ t)) L) as (st & E & K & O).
  - eapply Forall_impl; [|apply ids_le]. intros. cbn beta in *. lia.
  - exists st. split; auto. split; auto. etransitivity; [exact O|]. rewrite combine_diamond by auto. now apply run_over.
Qed.
Print Assumptions C83_combine_latest.

(** How many results combine_latest gives, and that the last one of every value is
    consistent. *)
Theorem C83_glitches : forall V A B (f : nat -> V -> A) n (g : list A -> B) v vs,
  length (diamond_combine f n g (v :: vs)) = 1 + S n * length vs /\
  (forall old new, mixed f n old new (S n) = map (fun j => f j new) (seq 0 (S n))) /\
  (forall old new k j, 1 <= k <= n -> j <= n -> nth_error (mixed f n old new k) j = Some (f j (if (1 <=? j) && (j <=? k) then new else old))).
Proof.
  intros V A B f n g v vs. split; [|split].
  - cbn [diamond_combine length]. change (1 + S n * length vs) with (S (S n * length vs)). f_equal. revert v. induction vs as [|w vs IH]; intro v; [cbn; lia|]. cbn [diamond_combine_from]. rewrite app_length, map_length, seq_length, IH. cbn [length]. lia.
  - intros old new. unfold mixed. apply map_ext. intro j. now rewrite Nat.eqb_refl, orb_true_r.
  - intros old new k j K J. unfold mixed. rewrite nth_error_map. 
    assert (E : nth_error (seq 0 (S n)) j = Some j) by (rewrite (nth_error_nth' _ 0) by (rewrite seq_length; lia); rewrite seq_nth by lia; reflexivity).
    rewrite E. cbn [option_map]. rewrite (proj2 (Nat.eqb_neq k (S n))) by lia. now rewrite orb_false_r.
Qed.
Print Assumptions C83_glitches.

(** s | map(v + 10) and s | map(v * 100) as arguments of an operator on s. *)
Definition tri (j v : nat) : nat := match j with 0 => v | 1 => v + 10 | _ => v * 100 end.
Definition sum_all (l : list nat) : nat := list_sum l.
Example C83_case :
  diamond_merge tri 2 [1; 2] = [1; 11; 100; 2; 12; 200] /\
  diamond_zip tri 2 sum_all [1; 2] = [112; 214] /\
  diamond_latest tri 2 (fun v l => v + sum_all l) [1; 2] = [112; 214] /\
  diamond_combine tri 2 sum_all [1; 2] = [112; 113; 213; 214] /\
  option_map (fun g : gs (combine_latest_op 3 (fun l => Ok (sum_all l))) plain => o_log (g_down g))
    (seq_run (combine_latest_op 3 (fun l => Ok (sum_all l))) plain (fun _ => []) (g_init _ plain o_init) (shared_calls tri (arguments_first 2) [Next 1; Next 2; Err 7])) =
    Some [Next 112; Next 113; Next 213; Next 214; Err 7] /\
  option_map (fun g : gs (merge_op nat) plain => o_log (g_down g))
    (seq_run (merge_op nat) plain (fun _ => []) (g_init _ plain o_init) (shared_merge tri 2 [Next 1; Next 2; Done])) =
    Some [Next 1; Next 11; Next 100; Next 2; Next 12; Next 200; Done].
Proof. repeat split; vm_compute; reflexivity. Qed.
