(** create_worker from several threads (C67). *)
From Coq Require Import NArith Permutation.
From Verif Require Import Base Concur PoolModel PoolConcModel.
Local Open Scope nat_scope.

(** Whatever the interleaving, m_workers is only read inside its bounds, and every call that
    has returned has returned one worker. *)
Theorem C67_in_bounds : forall n ks tr c, gexec (pstep n) (0%N, p_threads ks) tr c ->
  (forall p, In p tr -> (p < N.max 1 n)%N) /\ length tr + length (concat (snd c)) = list_sum ks.
Proof.
  intros n ks tr c X.
  set (Inv := fun (s : N) (l : list pitem) (tr : list N) => (forall p, In p tr -> (p < N.max 1 n)%N) /\ length tr + length l = list_sum ks).
  assert (I0 : Inv 0%N (concat (p_threads ks)) []).
  { split; [intros p []|]. cbn. unfold p_threads. clear. induction ks as [|k ks IH]; auto. cbn. rewrite app_length, repeat_length. f_equal. exact IH. }
  eapply (gexec_inv (pstep n) Inv) in X; auto.
  - intros s l l' t P (A & B). split; auto. now rewrite <- (Permutation_length P).
  - intros s i l t s' is ls (A & B) E. destruct i as [|idx]; cbn in E; inversion E; subst; clear E.
    + rewrite app_nil_r. split; auto.
    + cbn [app length] in *. split; [|rewrite app_length; cbn; lia].
      intros p H. apply in_app_iff in H as [H|[<-|[]]]; auto.
      unfold pool_size. apply N.mod_lt. lia.
Qed.
Print Assumptions C67_in_bounds.

(** One thread at a time: round robin, as long as m_index has not wrapped round. *)
Theorem C67_serial_partial : forall n k tr c, gexec (pstep n) (0%N, p_threads [k]) tr c -> gfinished c ->
  (N.of_nat k < size_t_range)%N ->
  tr = map (fun i => (N.of_nat i mod N.max 1 n)%N) (seq 0 k).
Proof.
  intros n k tr [s ts] X F K.
  assert (I : exists j m, tr = map (fun i => (N.of_nat i mod N.max 1 n)%N) (seq 0 j) /\ s = N.of_nat j /\
    (j + m = k /\ ts = [repeat PGet m] \/ j + S m = k /\ ts = [PStore s :: repeat PGet m])).
  { clear F. remember (0%N, p_threads [k]) as c0 eqn:E0. remember (s, ts) as c eqn:E. revert s ts E.
    induction X as [c|c tr c1 ls c2 X IH G]; intros s ts E.
    - rewrite E in E0. inversion E0. exists 0, k. cbn. auto.
    - specialize (IH E0). destruct c1 as [s1 t1]. destruct (IH s1 t1 eq_refl) as (j & m & T & S1 & P). clear IH X E0.
      remember (s1, t1) as c1 eqn:EC. destruct G as [s0 a it rest b s' its ls I]. injection EC as -> Q1.
      destruct P as [(L & P)|(L & P)]; rewrite P in Q1; (destruct a as [|x a]; [|now destruct a]).
      + destruct m as [|m]; [discriminate|]. injection Q1 as I1 R1 QB. rewrite I1 in I. cbn in I. injection I as I2 I3 I4.
        rewrite <- I2, <- I3, QB, R1 in E. injection E as E1 E2.
        exists j, m. rewrite <- I4, app_nil_r, <- E1, <- E2. repeat split; auto.
      + injection Q1 as I1 R1 QB. rewrite I1 in I. cbn in I. injection I as I2 I3 I4.
        rewrite <- I2, <- I3, QB, R1 in E. injection E as E1 E2.
        exists (S j), m. rewrite T, <- I4, <- E1, <- E2, S1. split; [|split].
        * rewrite seq_S, map_app. reflexivity.
        * assert (N.of_nat j + 1 = N.of_nat (S j))%N as -> by lia. apply N.mod_small. apply N.le_lt_trans with (N.of_nat k); [lia|exact K].
        * left. split; auto. lia. }
  destruct I as (j & m & T & _ & [(L & P)|(L & P)]); subst ts.
  - rewrite T. destruct m; [|now specialize (F _ (or_introl eq_refl))]. do 2 f_equal. lia.
  - now specialize (F _ (or_introl eq_refl)).
Qed.
Print Assumptions C67_serial_partial.

(** Two threads: both get the same worker although the pool has others, so the work of the two
    is not distributed; without the interleaving they get different ones. *)
Theorem C67_shared_refuted : exists tr c, gexec (pstep 4) (0%N, p_threads [1; 1]) tr c /\ gfinished c /\ tr = [0; 0]%N.
Proof.
  exists (fst (gtol (pstep 4) [0; 1; 0; 1] (0%N, p_threads [1; 1]))), (snd (gtol (pstep 4) [0; 1; 0; 1] (0%N, p_threads [1; 1]))).
  split; [apply gtol_sound|]. vm_compute. split; auto. intros t [<-|[<-|[]]]; auto.
Qed.
Print Assumptions C67_shared_refuted.
Example C67_case : fst (gtol (pstep 4) [0; 0; 1; 1; 0; 0] (0%N, p_threads [2; 1])) = [0; 1; 2]%N.
Proof. reflexivity. Qed.
