(** The end of a run of a pipeline with hops: everything has been shown. *)
From Coq Require Import Permutation.
From Verif Require Import Base Machine MachineProofs ObserverModel MultiSpec OpsSpec ChainSpec ChainModel ChainProofs TreeSpec TreeModel TreeEnd Concur DelaySpec DelayModel DelayProofs PipeSpec PipeModel PipeProofs.
Open Scope nat_scope.

Section End.
  Context {V : Type} (D : machine V) (segs : list (chain V V)) (hops : nat -> hop) (src0 : list (ev V)) (d0 : mst D).
  Hypothesis LD : lawful D.
  Hypothesis NE : segs <> [].
  Variables (workers clock : list nat) (kills : nat).
  Notation n := (last_seg segs).
  Notation st := (pst D).
  Notation step := (pstep D segs hops).
  Notation c0 := (p_init D segs src0 d0, p_threads segs workers clock kills).

  Ltac fs := cbn [p_src p_hist p_cur p_out p_q p_fin p_act p_pend p_now p_d set_cur set_out set_pend] in *.

  (** Only chains there are. *)
  Definition okx (x : pitem) : Prop := match x with PSched j _ | PTask j _ | PDrain j | PEmit j | PFlush j => j <= n | _ => True end.
  Definition okp (s : st) : Prop := forall i t, In (i, t) (p_pend s) -> i <= n.
  Lemma next_ok : forall i, i <= n -> okx (next_of i).
  Proof. intros [|i] H; cbn; auto. Qed.
  Lemma ok_step : forall s it s' its ls, okx it -> okp s -> step s it = Some (s', its, ls) -> Forall okx its /\ okp s'.
  Proof.
    intros s it s' its ls O P ST.
    assert (PA : forall i t, i <= n -> okp (set_pend D s (p_pend s ++ [(i, t)]))).
    { intros i t L k u K. fs. apply in_app_iff in K as [K|[K|[]]]; [eauto|]. injection K as <- <-. auto. }
    destruct it; cbn [pstep okx] in *; unfold to_worker in ST.
    - destruct (p_src s) as [|e r] eqn:Q; injection ST as <- <- <-; split; auto. repeat constructor. cbn. lia.
    - destruct (p_q s i) as [|[e t] r] eqn:Q; [|destruct (t <=? p_now s); [|destruct (h_where (hops i))]]; injection ST as <- <- <-; split; auto.
    - destruct (dead s); injection ST as <- <- <-; split; auto. constructor; auto. now apply next_ok.
    - destruct (p_out s i) as [|e r] eqn:Q; [injection ST as <- <- <-; split; auto; constructor; auto; now apply next_ok|].
      destruct (Nat.eqb_spec i n) as [EN|EN].
      + destruct (dead s); injection ST as <- <- <-; split; auto. repeat constructor.
      + destruct (dead s || p_fin s (S i)); [injection ST as <- <- <-; split; auto|].
        destruct e as [v|x|], (h_clear (hops (S i))); try discriminate; injection ST as <- <- <-; split; auto; destruct (p_act s (S i)); repeat constructor; cbn; lia.
    - injection ST as <- <- <-. split; auto. repeat constructor.
    - destruct (h_where (hops i)); injection ST as <- <- <-; split; auto.
    - destruct (dead s); [|destruct (t <=? p_now s); [|discriminate]]; injection ST as <- <- <-; split; auto.
    - destruct (pick hops w (p_pend s)) as [[[i t] r]|] eqn:Q; [|discriminate]. injection ST as <- <- <-. destruct (pick_some _ _ _ _ _ _ Q) as (PE & _).
      assert (PI : forall x, In x ((i, t) :: r) -> In x (p_pend s)) by (intros x Y; eapply Permutation_in; [symmetry|]; eauto).
      split; [repeat constructor; apply (P i t); apply PI; now left|]. intros k u K. fs. apply (P k u). apply PI. now right.
    - injection ST as <- <- <-. split; auto.
    - injection ST as <- <- <-. split; auto.
  Qed.
  Lemma ok_run : forall tr s ts, gexec step c0 tr (s, ts) -> Forall okx (concat ts) /\ okp s.
  Proof.
    intros tr s ts X. change (let c := (s, ts) in Forall okx (concat (snd c)) /\ okp (fst c)). cbv zeta.
    apply (gexec_inv step (fun s l _ => Forall okx l /\ okp s)) with (3 := X).
    - intros s1 l l' t P (A & B). split; auto. eapply Permutation_Forall; eauto.
    - intros s1 it l t s' its ls (A & B) ST. inversion A; subst. destruct (ok_step _ _ _ _ _ H1 B ST) as (F & G). split; auto. apply Forall_app. auto.
    - split; [|intros i t []]. apply Forall_forall. intros x H. cbn [snd] in H. unfold p_threads in H. cbn [concat] in H. apply in_app_iff in H as [H|H].
      + apply in_map_iff in H as (j & <- & J). apply in_rev in J. apply in_seq in J. cbn. lia.
      + destruct (rest_in _ _ _ _ H) as [(w & ->)|[(m & ->)| ->]]; exact I.
  Qed.

  (** The workers stay, and each works on one task at a time. *)
  Definition isW (x : pitem) : bool := match x with PWork _ => true | _ => false end.
  Lemma next_W : forall i, isW (next_of i) = false.
  Proof. intros [|i]; reflexivity. Qed.
  Lemma work_stays : forall w tr s ts, gexec step c0 tr (s, ts) -> In w workers -> In (PWork w) (concat ts).
  Proof.
    intros w tr s ts X IW. change (let c := (s, ts) in In (PWork w) (concat (snd c))). cbv zeta.
    apply (gexec_inv step (fun s l _ => In (PWork w) l)) with (3 := X).
    - intros s1 l l' t P A. eapply Permutation_in; eauto.
    - intros s1 it l t s' its ls A ST. apply in_app_iff. destruct A as [->|A]; auto. left. cbn [pstep] in ST.
      destruct (pick hops w (p_pend s1)) as [[[i u] r]|] eqn:Q; [|discriminate]. injection ST as <- <- <-. right. now left.
    - cbn [snd]. unfold p_threads. cbn [concat]. apply in_app_iff. right. apply in_concat. exists [PWork w]. split; [|now left].
      apply in_app_iff. left. apply in_map_iff. eauto.
  Qed.
  Lemma work_last : forall tr s ts, gexec step c0 tr (s, ts) -> Forall (wlast isW) ts.
  Proof.
    intros tr s ts X. apply (wlast_inv step isW) with (2 := X).
    - clear. intros s it s' its ls ST. destruct it; cbn [pstep] in ST; unfold to_worker in ST.
      + left. destruct (p_src s) as [|e r]; injection ST as <- <- <-; cbn; intuition (subst; reflexivity).
      + left. destruct (p_q s i) as [|[e t] r] eqn:Q; [|destruct (t <=? p_now s); [|destruct (h_where (hops i))]]; injection ST as <- <- <-; cbn; intuition (subst; reflexivity).
      + left. destruct (dead s); injection ST as <- <- <-; intros k [<-|[]]; auto using next_W.
      + left. destruct (p_out s i) as [|e r] eqn:Q; [injection ST as <- <- <-; intros k [<-|[]]; apply next_W|].
        destruct (i =? n); [destruct (dead s); injection ST as <- <- <-; intros k [<-|[]]; auto|].
        destruct (dead s || p_fin s (S i)); [injection ST as <- <- <-; intros k [<-|[]]; auto|].
        destruct e as [v|x|], (h_clear (hops (S i))); try discriminate; injection ST as <- <- <-; destruct (p_act s (S i)); cbn; intuition (subst; reflexivity).
      + left. injection ST as <- <- <-. intros k [<-|[]]; auto.
      + left. destruct (h_where (hops i)); injection ST as <- <- <-; cbn; intuition (subst; reflexivity).
      + left. destruct (dead s); [|destruct (t <=? p_now s); [|discriminate]]; injection ST as <- <- <-; cbn; intuition (subst; reflexivity).
      + right. split; auto. destruct (pick hops w (p_pend s)) as [[[i t] r]|] eqn:Q; [|discriminate]. injection ST as <- <- <-. exists [PTask i t], (PWork w). split; auto. intros k [<-|[]]. reflexivity.
      + left. injection ST as <- <- <-. intros k [].
      + left. injection ST as <- <- <-. intros k [].
    - cbn [snd]. unfold p_threads. constructor.
      + intros a i b E W. assert (IN : In i (map PFlush (rev (seq 0 (S n))))) by (rewrite E; apply in_app_iff; right; now left).
        apply in_map_iff in IN as (j & <- & _). discriminate.
      + apply Forall_forall. intros t T. assert (L : exists x, t = [x]).
        { rewrite !in_app_iff, !in_map_iff in T. destruct T as [(w & <- & _)|[(m & <- & _)|T]]; eauto. apply repeat_spec in T. eauto. }
        destruct L as (x & ->). intros a i b E _. destruct a as [|a0 a]; [injection E as _ <-; auto|]. injection E as _ E. destruct a; discriminate.
  Qed.

  (** Nothing more happens, however long one waits. *)
  Definition wait (m : nat) (s : st) : st :=
    PS (p_src s) (p_hist s) (p_cur s) (p_out s) (p_q s) (p_fin s) (p_act s) (p_pend s) (p_now s + m) (p_d s).
  Definition rests (s : st) (ts : list (list pitem)) : Prop := forall m it rest, In (it :: rest) ts -> step (wait m s) it = None.
  Definition errors_allowed : Prop := forall i, i < n -> h_clear (hops (S i)) = true -> no_error (arrives segs (S i) src0).

  Lemma rest_head : errors_allowed -> forall tr s ts, gexec step c0 tr (s, ts) -> dead s = false -> rests s ts -> forall it r, In (it :: r) ts -> exists w, it = PWork w.
  Proof.
    intros EA tr s ts X DS R it r IN. pose proof (R 0 it r IN) as N. destruct (pipe_inv D segs hops src0 d0 LD workers clock kills NE _ _ _ X) as (T & F & _). specialize (F DS).
    destruct (ok_run _ _ _ X) as (OK & _). rewrite Forall_forall in OK. assert (OI : okx it) by (apply OK; apply in_concat; exists (it :: r); split; auto; now left).
    destruct it; cbn [pstep] in N; unfold to_worker in N; try discriminate; eauto.
    - cbn [wait p_src] in N. destruct (p_src s); discriminate.
    - cbn [wait p_q p_now] in N. destruct (p_q s i) as [|[e t] q]; [discriminate|]. destruct (t <=? p_now s + 0); [discriminate|]. destruct (h_where (hops i)); discriminate.
    - destruct (dead (wait 0 s)); discriminate.
    - cbn [wait p_out p_now p_fin p_act] in N. destruct (p_out s i) as [|e q] eqn:Q; [discriminate|]. destruct (Nat.eqb_spec i n) as [EN|EN].
      + destruct (dead (wait 0 s)); discriminate.
      + destruct (dead (wait 0 s) || p_fin s (S i)); [discriminate|]. cbn in OI. destruct e as [v|x|], (h_clear (hops (S i))) eqn:HC; try discriminate. exfalso.
        assert (L : i < n) by lia. destruct (flow_prefix _ _ _ NE _ _ F i (Nat.lt_le_incl _ _ L)) as (z & E). rewrite <- (f_mid _ _ _ _ _ F i L), Q in E.
        apply (EA i L HC x). rewrite E. rewrite !in_app_iff. left. right. right. right. now left.
    - cbn [wait dead p_d] in N. destruct (h_where (hops i)); discriminate.
    - specialize (R t (PTask i t) r IN). cbn [pstep] in R. unfold dead in *. cbn [wait p_d p_now] in R. rewrite DS in R. destruct (Nat.leb_spec t (p_now s + t)); [discriminate|lia].
  Qed.

  Lemma all_workers : forall tr s ts, gexec step c0 tr (s, ts) -> (forall it r, In (it :: r) ts -> exists w, it = PWork w) -> forall x, In x (concat ts) -> exists w, x = PWork w.
  Proof.
    intros tr s ts X H x I. apply in_concat in I as (t & T & I). destruct t as [|it r]; [destruct I|]. destruct (H _ _ T) as (w & ->).
    pose proof (work_last _ _ _ X) as WL. rewrite Forall_forall in WL. specialize (WL _ T [] (PWork w) r eq_refl eq_refl). subst r. destruct I as [<-|[]]. eauto.
  Qed.

  Theorem pipe_complete : errors_allowed -> (forall i w, 1 <= i <= n -> h_where (hops i) = Some w -> In w workers) ->
    forall tr s ts, gexec step c0 tr (s, ts) -> rests s ts -> dead s = false -> map fst (DelaySpec.shown tr) = result segs src0.
  Proof.
    intros EA WK tr s ts X R DS. pose proof (rest_head EA _ _ _ X DS R) as RH. pose proof (all_workers _ _ _ X RH) as AW.
    destruct (pipe_inv D segs hops src0 d0 LD workers clock kills NE _ _ _ X) as (T & F & _). specialize (F DS). destruct (ok_run _ _ _ X) as (_ & OP).
    assert (ZZ : forall f, (forall w, f (PWork w) = false) -> count f (concat ts) = 0) by (intros f Hf; apply count_zero_of; intros x I; destruct (AW x I) as (w & ->); auto).
    assert (PE : p_pend s = []).
    { destruct (p_pend s) as [|[i t] r] eqn:Q; auto. exfalso. assert (I : In (i, t) (p_pend s)) by (rewrite Q; now left).
      pose proof (t_where _ _ _ _ _ T i t I) as W. destruct (h_where (hops i)) as [w|] eqn:HW; [|congruence].
      assert (L : 1 <= i <= n). { split; [|eapply OP; eauto]. assert (i <> 0) by (apply (t_zero _ _ _ _ _ T i t); left; right; now right). lia. }
      pose proof (work_stays _ _ _ _ X (WK i w L HW)) as IW. apply in_concat in IW as (th & TH & IW). destruct th as [|it r']; [destruct IW|].
      assert (it = PWork w). { destruct (RH _ _ TH) as (w' & ->). pose proof (work_last _ _ _ X) as WL. rewrite Forall_forall in WL. specialize (WL _ TH [] (PWork w') r' eq_refl eq_refl). subst r'. destruct IW as [IW|[]]. auto. }
      subst it. specialize (R 0 _ _ TH). cbn [pstep wait p_pend] in R. destruct (pick hops w (p_pend s)) as [[[k u] z]|] eqn:PK; [discriminate|]. exact (pick_none _ _ _ _ _ PK I HW). }
    assert (PC : forall i, pc D i s = 0) by (intro i; unfold pc; rewrite PE; reflexivity).
    assert (CU : forall i, p_cur s i = []) by (intro i; apply (t_cur _ _ _ _ _ T); apply ZZ; auto).
    assert (OU : forall i, p_out s i = []) by (intro i; apply (t_out _ _ _ _ _ T); apply ZZ; auto).
    assert (SR : p_src s = []) by (apply (t_src _ _ _ _ _ T); apply ZZ; auto).
    assert (QU : forall i, 1 <= i <= n -> p_q s i = []).
    { intros i L. apply (t_idle _ _ _ _ _ T). destruct (p_act s i) eqn:A; auto. pose proof (t_live _ _ _ _ _ T DS i L A) as TL. rewrite PC, ZZ in TL by auto. discriminate. }
    destruct F as [A B C E]. rewrite SR, CU, !app_nil_r in A. rewrite OU, app_nil_r in C.
    assert (G : forall i, i <= n -> seg_log (seg segs i) (p_hist s i) = arrives segs (S i) src0).
    { induction i as [|i IH]; intro L; rewrite arrives_S by (pose proof (n_lt segs NE); lia).
      - rewrite A, arrives_0. symmetry. apply seg_heard.
      - rewrite <- IH by lia. rewrite <- (B i) by lia. rewrite CU, OU, QU by lia. cbn [map app]. rewrite !app_nil_r. reflexivity. }
    rewrite C, G by auto. replace (S n) with (length segs) by (pose proof (n_lt segs NE); unfold last_seg in *; lia). apply arrives_all.
  Qed.

  Theorem pipe_same : errors_allowed -> (forall i w, 1 <= i <= n -> h_where (hops i) = Some w -> In w workers) ->
    forall tr s ts, gexec step c0 tr (s, ts) -> rests s ts -> ~ In DKill tr ->
    p_d s = bottom (whole segs) D (mrun (build (whole segs) D) (build_init (whole segs) D d0) src0).
  Proof.
    intros EA WK tr s ts X R NK. destruct (pipe_inv D segs hops src0 d0 LD workers clock kills NE _ _ _ X) as (_ & _ & ID).
    rewrite build_refines by auto. assert (G : p_d s = mrun D d0 (result segs src0)); [|rewrite G; unfold result; apply run_heard; auto].
    pose proof (d_state _ _ _ _ _ _ _ ID NK) as E. destruct (dead s) eqn:DS.
    - destruct (d_pre _ _ _ _ _ _ _ ID) as (r & ->). rewrite mrun_app, <- E. symmetry. apply mrun_dead; auto.
    - rewrite E. f_equal. eapply pipe_complete; eauto.
  Qed.
End End.
