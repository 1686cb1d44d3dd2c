(** C55: sources. *)
From Coq Require Import ZArith.
From Verif Require Import Base Machine MachineProofs ObserverModel ChainModel ChainProofs MultiSpec MultiLin MultiRace MultiProps Concur SrcSpec SrcModel SrcProofs.

Section SrcT.
  Context {A : Type} (D : machine A) (L : lawful D).
  Lemma K_got : forall s d0 d t0 tr dn, K D s d0 d t0 tr dn -> exists N0, forall N, N0 <= N -> got D d0 (sevs N s) (killed tr) d.
  Proof.
    intros s d0 d t0 tr dn [ST PL].
    assert (PR : exists N0, forall N, N0 <= N -> exists r, dn ++ r = sevs N s).
    { destruct t0 as [|it []]; [|eauto|destruct PL]. destruct PL as (N0 & PL). exists N0. intros N H. destruct (PL N H) as (r & R & _). eauto. }
    destruct PR as (N0 & PR). exists N0. intros N H. destruct (PR N H) as (r & <-). unfold got. destruct (killed tr).
    - destruct ST as (n & ->). exists (min n (length dn)). rewrite firstn_app. replace (min n (length dn) - length dn) with 0 by lia. cbn [firstn]. rewrite app_nil_r.
      destruct (Nat.le_ge_cases n (length dn)); [now rewrite min_l|]. now rewrite min_r, firstn_all, firstn_all2 by lia.
    - exists (length dn). rewrite firstn_app, Nat.sub_diag, firstn_all. cbn. now rewrite app_nil_r.
  Qed.
  Lemma K_end : forall s d0 d tr dn, K D s d0 d [] tr dn -> killed tr = false -> exists N0, forall N, N0 <= N -> d = mrun D d0 (sevs N s).
  Proof.
    intros s d0 d tr dn [ST (N0 & PL)] KF. rewrite KF in ST. exists N0. intros N H. destruct (PL N H) as (r & R & E). rewrite <- R, mrun_app, <- ST.
    destruct r as [|x r]; auto. symmetry. apply mrun_dead; auto. apply E. discriminate.
  Qed.
  Lemma sevs_from : forall (s : source A) l N, from s l -> sevs N s = elements l.
  Proof. induction s; intros l0 N [F|F]; cbn in *; try congruence; apply IHs; [now left|now right]. Qed.
  Lemma sevs_int : forall (s : source A) mk t p N, strip s = Interval mk t p -> sevs (A := A) N s = map (fun n => Next (mk n)) (seq 0 N).
  Proof. induction s; intros mk' t' p' N F; cbn in *; try discriminate; [now inversion F|eauto]. Qed.
  Lemma prompt_of : forall d t0 tr, after D d t0 tr -> prompt tr.
  Proof. intros d t0 tr AF a b E. destruct (AF a b E) as (_ & W). pose proof (gets_work b). lia. Qed.
End SrcT.

(** from_iterable / just, emitting at once or through a worker, with or without subscribe_on, an
    observer disposed by any number of threads at any moment: it got the first n events; the
    elements are read in order, each at most once, none while the observer is known to be
    disposed, at most one after another thread disposed it. *)
Theorem C55_from : forall A (D : machine A), lawful D -> forall s l d0 k tr c, from s l ->
  gexec (sstep D) (src_start D s d0 k) tr c ->
  got D d0 (elements l) (existsb is_kill tr) (fst c) /\ in_order tr /\ prompt tr /\
  (forall i, i < gets tr -> lag_of s <= i -> mdisp D (mrun D d0 (firstn (i - lag_of s) (elements l))) = false).
Proof.
  intros A D L s l d0 k tr c FR E.
  destruct (src_K D L s d0 k tr c E) as (t0 & gs & dn & T & KK). destruct (K_got D _ _ _ _ _ _ KK) as (N & G).
  specialize (G N (Nat.le_refl N)). rewrite (sevs_from s l N FR) in G. split; auto.
  destruct (src_reads D L s l d0 k tr c FR E) as (O & AL). split; auto.
  destruct (src_after D L s d0 k tr c E) as (t1 & gs1 & _ & AF). split; [eapply prompt_of; eauto|exact AL].
Qed.
Print Assumptions C55_from.

(** If nobody disposes it, it gets everything by the time the source has finished. *)
Theorem C55_from_all : forall A (D : machine A), lawful D -> forall s l d0 k tr c, from s l ->
  gexec (sstep D) (src_start D s d0 k) tr c -> existsb is_kill tr = false -> hd [] (snd c) = [] ->
  fst c = mrun D d0 (elements l).
Proof.
  intros A D L s l d0 k tr c FR E KF H.
  destruct (src_K D L s d0 k tr c E) as (t0 & gs & dn & T & KK). rewrite T in H. cbn in H. subst t0.
  destruct (K_end D L _ _ _ _ _ KK KF) as (N & G). rewrite (G N (Nat.le_refl N)). f_equal. now apply sevs_from.
Qed.
Print Assumptions C55_from_all.

(** empty, never, error. *)
Theorem C55_simple : forall A (D : machine A), lawful D -> forall (s : source A) evs d0 k tr c,
  (strip s = Empty /\ evs = [Done] \/ strip s = Never /\ evs = [] \/ exists e, strip s = Error e /\ evs = [Err e]) ->
  gexec (sstep D) (src_start D s d0 k) tr c ->
  got D d0 evs (existsb is_kill tr) (fst c) /\ (existsb is_kill tr = false -> hd [] (snd c) = [] -> fst c = mrun D d0 evs).
Proof.
  intros A D L s evs d0 k tr c HS E.
  assert (SE : forall N, sevs N s = evs).
  { intro N. revert HS. clear. induction s; cbn; intros [(H & ->)|[(H & ->)|(x & H & ->)]]; try congruence; apply IHs; eauto. }
  destruct (src_K D L s d0 k tr c E) as (t0 & gs & dn & T & KK). destruct (K_got D _ _ _ _ _ _ KK) as (N & G).
  specialize (G N (Nat.le_refl N)). rewrite SE in G. split; auto. intros KF H. rewrite T in H. cbn in H. subst t0.
  destruct (K_end D L _ _ _ _ _ KK KF) as (N' & G'). rewrite (G' N' (Nat.le_refl N')). now rewrite SE.
Qed.
Print Assumptions C55_simple.

(** interval: the observer got mk 0, mk 1, ...; value n is delivered by the run due n periods
    after the first one; it stops only when the observer is disposed, and then at most one more
    run happens. *)
Theorem C55_interval : forall A (D : machine A), lawful D -> forall s mk t p d0 k tr c, strip s = Interval mk t p ->
  gexec (sstep D) (src_start D s d0 k) tr c ->
  (exists n, got D d0 (map (fun i => Next (mk i)) (seq 0 n)) (existsb is_kill tr) (fst c)) /\
  (exists n, ticks tr = map (fun i => LTick (t + Z.of_nat i * p)%Z i) (seq 0 n)) /\
  (forall a b, tr = a ++ LKill :: b -> length (ticks b) <= 1) /\
  (hd [] (snd c) = [] -> mdisp D (fst c) = true).
Proof.
  intros A D L s mk t p d0 k tr c SI E.
  destruct (src_K D L s d0 k tr c E) as (t0 & gs & dn & T & KK). destruct (K_got D _ _ _ _ _ _ KK) as (N & G).
  specialize (G N (Nat.le_refl N)). rewrite (sevs_int s mk t p N SI) in G. split; eauto.
  destruct (src_ticks D L s mk t p d0 k tr c SI E) as (t1 & gs1 & n & T1 & TK & FI). split; eauto.
  destruct (src_after D L s d0 k tr c E) as (t2 & gs2 & _ & AF). split.
  - intros a b AB. destruct (AF a b AB) as (_ & W). assert (length (ticks b) <= work b); [|lia].
    clear. unfold ticks, work. induction b as [|[| |] b IH]; cbn; lia.
  - rewrite T1. cbn. exact FI.
Qed.
Print Assumptions C55_interval.

Example C55_case : exists tr c,
  gexec (sstep plain) (src_start plain (SubscribeOn (FromSched [Ok 1; Ok 2; Ok 3; Ok 4])) o_init 1) tr c /\ gfinished c /\
  tr = [LGet 0; LGet 1; LKill; LGet 2] /\ o_log (fst c) = [Next 1; Next 2].
Proof.
  destruct (grun (sstep plain) [0;0;0;0;0;0;0;0;0;0;0;0;1;0;0;0;0] (src_start plain (SubscribeOn (FromSched [Ok 1; Ok 2; Ok 3; Ok 4])) o_init 1)) as [[tr c]|] eqn:R; [|vm_compute in R; discriminate].
  exists tr, c. split; [eapply grun_sound; exact R|]. vm_compute in R. inversion R; subst. split; [intros t [<-|[<-|[]]]; reflexivity|auto].
Qed.
Example C55_throw_case : exists tr c,
  gexec (sstep plain) (src_start plain (FromImm [Ok 1; Throw 7; Ok 3]) o_init 0) tr c /\ gfinished c /\
  tr = [LGet 0; LGet 1] /\ o_log (fst c) = [Next 1; Err 7].
Proof.
  destruct (grun (sstep plain) [0;0;0;0;0;0] (src_start plain (FromImm [Ok 1; Throw 7; Ok 3]) o_init 0)) as [[tr c]|] eqn:R; [|vm_compute in R; discriminate].
  exists tr, c. split; [eapply grun_sound; exact R|]. vm_compute in R. inversion R; subst. split; [intros t [<-|[]]; reflexivity|auto].
Qed.
Example C55_interval_case : exists tr c,
  gexec (sstep plain) (src_start plain (Interval (fun n => n) 10 5) o_init 1) tr c /\ gfinished c /\
  tr = [LTick 10 0; LTick 15 1; LTick 20 2; LKill] /\ o_log (fst c) = [Next 0; Next 1; Next 2].
Proof.
  destruct (grun (sstep plain) [0;0;0;0;0;0;0;1;0] (src_start plain (Interval (fun n => n) 10 5) o_init 1)) as [[tr c]|] eqn:R; [|vm_compute in R; discriminate].
  exists tr, c. split; [eapply grun_sound; exact R|]. vm_compute in R. inversion R; subst. split; [intros t [<-|[<-|[]]]; reflexivity|auto].
Qed.
