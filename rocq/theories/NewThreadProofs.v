From Coq Require Import ZArith NArith Permutation.
From Verif Require Import Base Concur QueueSpec QueueProofs SchedSpec SchedOrder LoopSpec LoopBase LoopAbs TestProofs NewThreadModel.
Open Scope Z_scope.

Section NewThread.
  Variable kind : nat -> skind.
  Variable beh : nat -> nat -> list tact * sres.
  Variable onerr : nat -> list tact.
  Notation nstep := (nstep kind beh onerr).
  Notation nexec := (gexec nstep).

  Definition n_hand (it : nitem) : list hand :=
    match it with
    | NRun t => [HPicked t]
    | NRet t _ => [HRun t]
    | NRes t _ | NReIns t _ => [HRes t]
    | _ => []
    end.
  Definition n_abs (s : nstate) (l : list nitem) : astate :=
    AState (n_now s) (n_queue s) (flat_map n_hand l) (n_dead s) (n_next s) false.
  Definition n_ok1 (s : nstate) (it : nitem) : Prop :=
    match it with
    | NRun t | NRet t _ => (t_k t = KThis -> t_due t <= t_tp t) /\ t_due t <= n_now s
    | NRes t v => t_due t <= (match t_k t with KNow => n_now s + v | KThis => t_tp t + v | KTo => v end) /\
                  (v = 0 -> t_k t = KThis -> t_due t <= n_now s)
    | NReIns t tp => t_due t <= tp
    | _ => True
    end.
  Definition n_ok (s : nstate) (l : list nitem) : Prop :=
    Forall this_ok (n_queue s) /\ n_last s <= n_now s /\ Forall (n_ok1 s) l.

  Lemma tacts_hand : forall acts, flat_map n_hand (map tact_item acts) = [].
  Proof. induction acts as [|[]]; auto. Qed.
  Lemma tacts_ok : forall s acts, Forall (n_ok1 s) (map tact_item acts).
  Proof. induction acts as [|[]]; constructor; cbn; auto. Qed.
  Lemma nacts_hand : forall acts, flat_map n_hand (map NAct acts) = [].
  Proof. induction acts; auto. Qed.
  Lemma nacts_ok : forall s acts, Forall (n_ok1 s) (map NAct acts).
  Proof. induction acts; constructor; cbn; auto. Qed.

  Ltac ncases E :=
    unfold NewThreadModel.nstep, n_top in E; cbn [n_now n_last n_queue n_dead n_next n_fresh n_pend n_stop n_wait n_woken n_setw n_look n_setq] in E;
    repeat match type of E with context [match ?x with _ => _ end] =>
      lazymatch x with context [match _ with _ => _ end] => fail | _ => destruct x eqn:? end end;
    try discriminate; injection E as <- <- <-.
  Ltac nred := cbn [n_now n_last n_queue n_dead n_next n_fresh n_pend n_stop n_wait n_woken n_setw n_look n_setq n_setp n_setf n_new] in *.

  Lemma now_mono : forall s it s' its ls, nstep s it = Some (s', its, ls) -> n_now s <= n_now s'.
  Proof. intros s it s' its ls E. destruct s as [now la q d n f p st w k]. destruct it as [[]| | | | | | | | | | |]; ncases E; nred; lia. Qed.

  Lemma n_sim : forall s l1 it l2 s' its ls, n_ok s (l1 ++ it :: l2) -> nstep s it = Some (s', its, ls) ->
    n_ok s' (l1 ++ its ++ l2) /\ aexec (n_abs s (l1 ++ it :: l2)) ls (n_abs s' (l1 ++ its ++ l2)).
  Proof.
    intros s l1 it l2 s' its ls (OQ & LA & OL) E. pose proof (now_mono _ _ _ _ _ E) as NM.
    assert (MON : forall x, n_ok1 s x -> n_ok1 s' x).
    { intros x. destruct x; cbn; auto; try (intros [A B]; split; auto; try lia); intros. - destruct (t_k t); lia. - pose proof (B H H0). lia. }
    apply Forall_app in OL. destruct OL as [O1 O2]. inversion O2 as [|? ? OI O3]; subst.
    apply (Forall_impl _ MON) in O1, O3.
    assert (OK : Forall this_ok (n_queue s') -> n_last s' <= n_now s' -> Forall (n_ok1 s') its -> n_ok s' (l1 ++ its ++ l2)).
    { intros. split; [auto|split; auto]. rewrite !Forall_app. auto. }
    clear MON O2 O1 O3. unfold n_abs. rewrite !flat_map_app. cbn [flat_map].
    destruct s as [now la q d n f p st w k]. nred.
    destruct it as [[]|dd code h|tp code h| |id| | |x|t|t r|t v|t tp]; ncases E; nred;
      try (split; [apply OK; auto; try lia; repeat (apply Forall_cons || apply Forall_nil); cbn; auto | cbn; apply aexec_one; constructor; auto; try lia; cbn; auto; fail]);
      try (split; [apply OK; auto; try lia; repeat (apply Forall_cons || apply Forall_nil); cbn; auto | constructor]; fail).
    - apply ins_ok; auto. unfold this_ok. cbn. lia.
    - apply ins_ok; auto. unfold this_ok. cbn. lia.
    - inversion OQ; subst. split; [apply OK; auto; repeat constructor|]. cbn. apply aexec_one. constructor. now apply dead_in.
    - inversion OQ as [|? ? OQ1 OQ2]; subst. unfold this_ok in OQ1. apply andb_false_iff in Heqb0 || apply andb_false_iff in Heqb1 || apply andb_false_iff in Heqb2.
      assert (t_tp t <= now) by lia.
      split; [apply OK; auto; try lia; repeat constructor; cbn; auto; lia|]. cbn. apply aexec_one. constructor; [now apply dead_not | lia].
    - inversion OQ as [|? ? OQ1 OQ2]; subst. unfold this_ok in OQ1. apply andb_false_iff in Heqb0 || apply andb_false_iff in Heqb1 || apply andb_false_iff in Heqb2.
      assert (t_tp t <= now) by lia.
      split; [apply OK; auto; try lia; repeat constructor; cbn; auto; lia|]. cbn. apply aexec_one. constructor; [now apply dead_not | lia].
    - inversion OQ; subst. split; [apply OK; auto; repeat constructor|]. cbn. apply aexec_one. constructor. now apply dead_in.
    - inversion OQ as [|? ? OQ1 OQ2]; subst. unfold this_ok in OQ1. apply andb_false_iff in Heqb0 || apply andb_false_iff in Heqb1 || apply andb_false_iff in Heqb2.
      assert (t_tp t <= now) by lia.
      split; [apply OK; auto; try lia; repeat constructor; cbn; auto; lia|]. cbn. apply aexec_one. constructor; [now apply dead_not | lia].
    - inversion OQ as [|? ? OQ1 OQ2]; subst. unfold this_ok in OQ1. apply andb_false_iff in Heqb0 || apply andb_false_iff in Heqb1 || apply andb_false_iff in Heqb2.
      assert (t_tp t <= now) by lia.
      split; [apply OK; auto; try lia; repeat constructor; cbn; auto; lia|]. cbn. apply aexec_one. constructor; [now apply dead_not | lia].
    - split; [apply OK; auto; apply Forall_app; split; [apply tacts_ok | repeat constructor; apply OI]|].
      cbn. rewrite flat_map_app, tacts_hand. cbn. apply aexec_one. constructor.
    - split; [apply OK; auto; apply Forall_app; split; [apply tacts_ok | repeat constructor]|].
      rewrite flat_map_app, tacts_hand. cbn.
      change [(now, LEnd (t_id t) RThrow); (now, LErr (t_id t) (t_h t))] with ([(now, LEnd (t_id t) RThrow)] ++ [(now, LErr (t_id t) (t_h t))]).
      econstructor; [apply aexec_one; constructor | constructor].
    - cbn in OI. destruct OI as [OI1 OI2]. unfold next_due. split; intros; destruct (t_k t); try lia; try discriminate; specialize (OI1 eq_refl); lia.
    - split; [apply OK; auto; repeat constructor|]. cbn. apply aexec_one. apply A_dropr. now apply dead_in.
    - cbn in OI. destruct OI as [OI1 OI2]. apply andb_true_iff in Heqb0. destruct Heqb0 as [C F]. unfold can_now in C.
      assert (D : t_k t <> KTo /\ v = 0) by (destruct (t_k t); [| |discriminate]; apply Z.eqb_eq in C; auto; split; auto; discriminate).
      destruct D as [D ->].
      assert (t_due t <= now) by (destruct (t_k t); [lia | apply OI2; auto | congruence]).
      split; [apply OK; auto; repeat constructor; cbn; auto; intro K; rewrite K in *; lia|]. cbn. apply aexec_one. apply A_direct; auto. now apply dead_not.
    - cbn in OI. unfold new_tp. destruct OI. destruct (t_k t); lia.
    - cbn in OI. unfold new_tp. destruct OI. destruct (t_k t); lia.
    - cbn in OI. unfold new_tp. destruct OI. destruct (t_k t); lia.
    - cbn in OI. apply ins_ok; auto.
  Qed.

  Lemma ninit_hand : forall progs, flat_map n_hand (concat (map (map NAct) progs)) = [].
  Proof. induction progs; cbn; auto. rewrite flat_map_app, nacts_hand. auto. Qed.
  Lemma ninit_ok : forall s progs, Forall (n_ok1 s) (concat (map (map NAct) progs)).
  Proof. intros s progs. induction progs as [|p progs IH]; cbn; [constructor|]. apply Forall_app. split; auto. apply nacts_ok. Qed.
  Lemma n_abs_exec : forall t0 t1 progs tr s ts, t1 <= t0 -> nexec (n_init t0 t1 progs) tr (s, ts) ->
    aexec (a_init t0) tr (n_abs s (concat ts)).
  Proof.
    intros t0 t1 progs tr s ts L X. destruct (simulate nstep n_abs n_ok n_sim _ _ _ X) as [_ A].
    - split; [constructor | split; [exact L|]]. cbn. constructor; [exact I | apply ninit_ok].
    - cbn [fst snd n_init] in A. cbn [concat app] in A. unfold n_abs at 1 in A. cbn [flat_map n_hand app] in A. rewrite ninit_hand in A. exact A.
  Qed.

  (** ** The loop's thread and the others *)
  Definition is_env (it : nitem) : Prop := match it with NAct _ | NPush _ _ _ | NNote | NFresh _ => True | _ => False end.
  Definition is_act (it : nitem) : Prop := match it with NNest _ _ _ => True | _ => is_env it end.
  Definition is_busy (it : nitem) : Prop := match it with NTop | NRun _ | NRet _ _ | NRes _ _ | NReIns _ _ => True | _ => False end.
  Definition sub_of (it : nitem) : bool := match it with NPush _ _ _ | NFresh _ => true | _ => false end.
  Definition note_of (it : nitem) : bool := match it with NNote => true | _ => false end.

  (** Where the loop is, with what must then hold; k is the number of notifications under way. *)
  Inductive LoopAt (s : nstate) (k : nat) : list nitem -> Prop :=
  | L_exit : n_stop s = true -> n_queue s = [] -> n_wait s = false -> LoopAt s k []
  | L_wait : n_wait s = true -> (n_queue s <> [] \/ n_stop s = true -> n_woken s = true \/ (1 <= k)%nat) -> LoopAt s k [NWait]
  | L_for : forall x, n_wait s = true -> (exists t, In t (n_queue s) /\ t_tp t = x) -> LoopAt s k [NWaitFor x]
  | L_busy : forall pre L, n_wait s = false -> Forall is_act pre -> is_busy L -> LoopAt s k (pre ++ [L]).

  Record NInv (s : nstate) (ts : list (list nitem)) (tr : list ltev) : Prop := {
    v_pend : n_pend s = count sub_of (concat ts);
    v_stop : n_stop s = true -> n_pend s = 0%nat;
    v_exit : happened tr LExit -> exists rest, ts = [] :: rest;
    v_at : exists tl rest, ts = tl :: rest /\ Forall (Forall is_env) rest /\ LoopAt s (count note_of (concat rest)) tl
  }.
  Lemma tacts_act : forall acts, Forall is_act (map tact_item acts).
  Proof. induction acts as [|[]]; constructor; cbn; auto. Qed.
  Lemma tacts_sub : forall acts, count sub_of (map tact_item acts) = 0%nat.
  Proof. induction acts as [|[]]; auto. Qed.
  Lemma nacts_env : forall acts, Forall is_env (map NAct acts).
  Proof. induction acts; constructor; cbn; auto. Qed.
  Lemma ninit_sub : forall progs, count sub_of (concat (map (map NAct) progs)) = 0%nat.
  Proof. induction progs as [|p progs IH]; auto. cbn. rewrite count_app, IH. clear. induction p; auto. Qed.
  Lemma t_ins_not_nil : forall t q, t_ins t q <> [].
  Proof. intros t [|x q]; cbn; [discriminate|]. destruct (t_tp t <? t_tp x); discriminate. Qed.

  Lemma n_inv : forall t0 t1 progs tr s ts, nexec (n_init t0 t1 progs) tr (s, ts) -> NInv s ts tr.
  Proof.
    intros t0 t1 progs tr s ts X.
    change (NInv (fst (s, ts)) (snd (s, ts)) tr). eapply gexec_tinv with (istep := nstep) (Inv := NInv); [ | exact X | ].
    - clear. intros s ts1 it rest ts2 tr s' its ls [VP VS VE (tl & rs & ET & EN & AT)] E. split.
      + rewrite !concat_app, !count_app in *. cbn [concat] in *. rewrite !count_app in *. cbn [app] in *. rewrite count_cons in VP.
        destruct s as [now la q d n f p st w k]. nred.
        destruct it as [[]|dd code h|tp code h| |id| | |x|t|t r|t v|t tp]; ncases E; nred; rewrite ?count_app, ?tacts_sub, ?count_cons, ?count_nil; cbn in *; try lia.
      + destruct s as [now la q d n f p st w k]. nred.
        destruct it as [[]|dd code h|tp code h| |id| | |x|t|t r|t v|t tp]; ncases E; nred; auto; try congruence.
        * intros _. now apply Nat.eqb_eq.
        * intros H. rewrite (VS H). reflexivity.
      + intro H. apply happened_app in H. destruct H as [H | H].
        * destruct (VE H) as (r0 & E0). destruct ts1 as [|y ts1]; cbn in E0; [discriminate|]. injection E0 as -> <-. cbn. eauto.
        * assert (Q : (it = NTop \/ it = NWait) /\ its = []).
          { clear - E H. destruct s as [now la q d n f p st w k]. nred.
            destruct it as [[]|dd code h|tp code h| |id| | |x|t|t r|t v|t tp]; ncases E; destruct H as (t9 & H); cbn in H;
              try contradiction; repeat (destruct H as [H | H]; try discriminate; try contradiction); auto. }
          destruct Q as [Q ->]. destruct ts1 as [|y ts1]; cbn in ET.
          -- injection ET as <- <-. cbn. exists ts2. f_equal. clear - AT Q. inversion AT as [| | |pre L A B C D]; subst; auto.
             destruct pre as [|z pre]; cbn in D; [congruence|]. injection D as -> <-. inversion B as [|? ? B1 _]; subst. destruct Q; subst; contradiction.
          -- injection ET as <- <-. exfalso. apply Forall_app in EN. destruct EN as [_ EN]. inversion EN as [|? ? E1 _]; subst.
             inversion E1; subst. destruct Q; subst; contradiction.
      + destruct ts1 as [|y ts1]; cbn in ET.
        * (* the loop's thread *) injection ET as <- <-. exists (its ++ rest), ts2. cbn. split; [reflexivity|]. split; [auto|].
          remember (it :: rest) as th eqn:ETH. destruct AT as [A1 A2 A3|A1 A2|x A1 A2|pre L A1 A2 A3]; [discriminate| | |].
          -- injection ETH as <- <-. destruct s as [now la q d n f p st w k]. nred. ncases E; nred; cbn [app]; subst;
               try (change [NTop] with ([] ++ [NTop]); constructor; cbn; auto; fail);
               try (match goal with |- LoopAt _ _ [NRun ?t] => change [NRun t] with ([] ++ [NRun t]) end; constructor; cbn; auto; fail).
             all: try (constructor; cbn; auto; fail).
             all: try (constructor; cbn; auto; eexists; split; [left; reflexivity | reflexivity]).
             all: try (constructor; cbn; auto; destruct q; [|discriminate]; destruct st; [discriminate|]; intros [H | H]; congruence).
             all: try (destruct st; discriminate).
          -- injection ETH as <- <-. destruct s as [now la q d n f p st w k]. nred. ncases E; nred; cbn [app]; subst;
               try (change [NTop] with ([] ++ [NTop]); constructor; cbn; auto; fail).
          -- destruct pre as [|z pre]; cbn in ETH.
             ++ injection ETH as -> <-. rewrite app_nil_r. destruct s as [now la q d n f p st w k]. nred.
                destruct it as [[]|dd code h|tp code h| |id| | |x|t|t r|t v|t tp]; try contradiction; ncases E; nred; subst;
                  try (match goal with |- LoopAt _ _ [?t] => change [t] with ([] ++ [t]) end; constructor; cbn; auto; fail);
                  try (constructor; cbn; auto; [apply tacts_act]; fail).
                all: try (constructor; cbn; auto; fail).
                all: try (constructor; cbn; auto; eexists; split; [left; reflexivity | reflexivity]).
                all: try (constructor; cbn; auto; intros [H | H]; congruence).
             ++ injection ETH as -> <-. inversion A2 as [|? ? A4 A5]; subst. rewrite app_assoc.
                assert (Q : Forall is_act its /\ n_wait s' = false).
                { clear - E A1 A4. destruct s as [now la q d n f p st w k]. nred. subst w.
                  destruct it as [[]|dd code h|tp code h| |id| | |x|t|t r|t v|t tp]; try contradiction; ncases E; nred; repeat constructor; cbn; auto. }
                destruct Q. constructor; auto. apply Forall_app. auto.
        * (* another thread *) injection ET as <- <-. apply Forall_app in EN. destruct EN as [E1 E2]. inversion E2 as [|? ? E3 E4]; subst. inversion E3 as [|? ? E5 E6]; subst.
          exists y, (ts1 ++ (its ++ rest) :: ts2). cbn. split; [reflexivity|].
          assert (Q : Forall is_env its).
          { clear - E E5. destruct s as [now la q d n f p st w k]. nred.
            destruct it as [[]|dd code h|tp code h| |id| | |x|t|t r|t v|t tp]; try contradiction; ncases E; repeat constructor. }
          split; [apply Forall_app; split; auto; constructor; auto; apply Forall_app; auto|].
          rewrite !concat_app, !count_app in *. cbn [concat] in *. rewrite !count_app in *. cbn [app] in *. rewrite count_cons in AT.
          destruct s as [now la q d n f p st w k]. nred.
          destruct AT as [A1 A2 A3|A1 A2|x A1 A2|pre L A1 A2 A3]; nred; subst.
          -- specialize (VS eq_refl). rewrite ?concat_app, ?count_app in VS. cbn [concat app] in VS. rewrite ?count_app, ?count_cons in VS.
             destruct it as [[]|dd code h|tp code h| |id| | |x|t|t r|t v|t tp]; try contradiction; ncases E; nred; constructor; cbn; auto.
             cbn in VS. lia.
          -- destruct it as [[]|dd code h|tp code h| |id| | |x|t|t r|t v|t tp]; try contradiction; ncases E; nred; constructor; cbn; auto;
               try (intros H; destruct (A2 H) as [H1 | H1]; [now left | right; cbn in H1; rewrite ?count_cons in *; cbn in *; lia]).
             all: intros _; right; rewrite ?count_cons; cbn; lia.
          -- destruct A2 as (t & A2 & A3). assert (exists t', In t' (n_queue s') /\ t_tp t' = x).
             { destruct it as [[]|dd code h|tp code h| |id| | |x9|t9|t9 r|t9 v|t9 tp]; try contradiction; ncases E; nred; exists t; split; auto. apply t_ins_in. auto. }
             assert (n_wait s' = true) by (destruct it as [[]|dd code h|tp code h| |id| | |x9|t9|t9 r|t9 v|t9 tp]; try contradiction; ncases E; nred; auto).
             now constructor.
          -- constructor; auto. destruct it as [[]|dd code h|tp code h| |id| | |x9|t9|t9 r|t9 v|t9 tp]; try contradiction; ncases E; nred; auto.
    - split; cbn.
      + now rewrite count_cons, ninit_sub.
      + auto.
      + intros (t & []).
      + exists [NTop], (map (map NAct) progs). split; auto. split.
        * clear. induction progs; constructor; auto. apply nacts_env.
        * change [NTop] with ([] ++ [NTop]). constructor; cbn; auto.
  Qed.

  (** ** After the loop has ended everything submitted is over. *)
  Lemma env_hand : forall ts, Forall (Forall is_env) ts -> flat_map n_hand (concat ts) = [].
  Proof.
    intros ts F. induction F as [|t ts F1 F IH]; auto. cbn. rewrite flat_map_app, IH, app_nil_r.
    clear - F1. induction F1 as [|it t E F IH]; auto. cbn. destruct it; cbn in *; try contradiction; auto.
  Qed.
  Lemma sort_nil : forall w, sortw w = [] -> w = [].
  Proof. intros w E. destruct w as [|x w]; auto. pose proof (idsw_sort (x :: w) (snd x)) as H. rewrite E in H. exfalso. apply H. now left. Qed.
  Theorem exit_all : forall t0 t1 progs tr s ts, t1 <= t0 -> nexec (n_init t0 t1 progs) tr (s, ts) ->
    happened tr LExit -> forall id, called tr id -> over tr id.
  Proof.
    intros t0 t1 progs tr s ts L X H id C. pose proof (n_abs_exec _ _ _ _ _ _ L X) as A. destruct (n_inv _ _ _ _ _ _ X) as [_ _ VE (tl & rest & E & EN & AT)].
    destruct (VE H) as (r & E2). rewrite E2 in E. injection E as <- <-. inversion AT as [A1 A2 A3| | |pre ? ? ? ? P]; [|destruct pre; discriminate].
    subst ts. cbn [concat app] in A.
    assert (HH : a_hands (n_abs s (concat r)) = []) by (cbn; apply env_hand; auto).
    destruct (f_all _ _ _ A HH eq_refl _ C) as [O | O]; auto.
    pose proof (f_queue _ _ _ A) as Q. cbn in Q. rewrite A2 in Q. cbn in Q. rewrite (sort_nil _ (eq_sym Q)) in O. destruct O.
  Qed.

  (** ** One task at a time *)
  Definition run_of (it : nitem) : list nat := match it with NRet t _ => [t_id t] | _ => [] end.
  Lemma tacts_run : forall acts, flat_map run_of (map tact_item acts) = [].
  Proof. induction acts as [|[]]; auto. Qed.
  Lemma env_run : forall ts, Forall (Forall is_env) ts -> flat_map run_of (concat ts) = [].
  Proof.
    intros ts F. induction F as [|t ts F1 F IH]; auto. cbn. rewrite flat_map_app, IH, app_nil_r.
    clear - F1. induction F1 as [|it t E F IH]; auto. cbn. destruct it; cbn in *; try contradiction; auto.
  Qed.
  Lemma act_run : forall l, Forall is_act l -> flat_map run_of l = [].
  Proof. intros l F. induction F as [|it t E F IH]; auto. cbn. destruct it; cbn in *; try contradiction; auto. Qed.
  Lemma n_run : forall t0 t1 progs tr s ts, nexec (n_init t0 t1 progs) tr (s, ts) ->
    in_run tr = flat_map run_of (hd [] ts).
  Proof.
    intros t0 t1 progs tr s ts X. change ts with (snd (s, ts)). remember (n_init t0 t1 progs) as c0 eqn:E0. remember (s, ts) as c eqn:EC. clear EC s ts.
    induction X as [c|c tr [s ts] ls c2 X IH G]; subst; [reflexivity|]. specialize (IH eq_refl).
    destruct (n_inv _ _ _ _ _ _ X) as [_ _ _ (tl & rest & E & EN & AT)]. inversion G as [s1 ts1 it rs ts2 s' its ls' ST]; subst. cbn [snd] in *.
    unfold in_run in *. rewrite fold_left_app, IH.
    destruct ts1 as [|y ts1]; cbn [app hd] in *; match goal with Q : _ :: _ = _ :: _ |- _ => injection Q as <- <- end.
    - remember (it :: rs) as th eqn:ETH. destruct AT as [A1 A2 A3|A1 A2|x A1 A2|pre L A1 A2 A3]; [discriminate| | |].
      + injection ETH as <- <-. rewrite app_nil_r. destruct s as [now la q d n f p st w k]. nred. ncases ST; reflexivity.
      + injection ETH as <- <-. rewrite app_nil_r. destruct s as [now la q d n f p st w k]. nred. ncases ST; reflexivity.
      + rewrite flat_map_app, (act_run _ A2). cbn [app flat_map]. rewrite app_nil_r. destruct pre as [|z pre]; cbn in ETH; injection ETH as -> <-.
        * rewrite app_nil_r. destruct s as [now la q d n f p st w k]. nred.
          destruct it as [[]|dd code h|tp code h| |id| | |x|t|t r|t v|t tp]; try contradiction; ncases ST; rewrite ?flat_map_app, ?tacts_run; cbn; rewrite ?Nat.eqb_refl; auto.
        * inversion A2 as [|? ? A4 A5]; subst. rewrite !flat_map_app, (act_run _ A5). cbn [app flat_map]. rewrite app_nil_r. destruct s as [now la q d n f p st w k]. nred.
          destruct it as [[]|dd code h|tp code h| |id| | |x|t|t r|t v|t tp]; try contradiction; ncases ST; cbn; auto.
    - apply Forall_app in EN. destruct EN as [_ EN]. inversion EN as [|? ? E3 E4]; subst. inversion E3 as [|? ? E5 E6]; subst.
      destruct s as [now la q d n f p st w k]. nred.
      destruct it as [[]|dd code h|tp code h| |id| | |x|t|t r|t v|t tp]; try contradiction; ncases ST; cbn; auto.
  Qed.
  Lemma n_locate : forall c0 tr c, nexec c0 tr c -> forall a x b, tr = a ++ x :: b -> fst x = fst x ->
    exists s ts tr0 ls1 ls2 s' ts', nexec c0 tr0 (s, ts) /\ gstep nstep (s, ts) (ls1 ++ x :: ls2) (s', ts') /\ a = tr0 ++ ls1.
  Proof.
    induction 1 as [c|c tr [s ts] ls [s' ts'] X IH G]; intros a x b E _; [destruct a; discriminate|].
    apply app_eq_app in E. destruct E as (l & [[E1 E2] | [E1 E2]]).
    - destruct l as [|y l].
      + cbn in E2. subst ls. rewrite app_nil_r in E1. subst tr. exists s, ts, a, [], b, s', ts'. cbn. rewrite app_nil_r. auto.
      + injection E2 as <- ->. eapply IH; eauto.
    - subst ls. exists s, ts, tr, l, b, s', ts'. auto.
  Qed.
  Theorem one_at_a_time : forall t0 t1 progs tr c a t id b, nexec (n_init t0 t1 progs) tr c ->
    tr = a ++ (t, LStart id) :: b -> in_run a = [].
  Proof.
    intros t0 t1 progs tr c a t id b X E. destruct (n_locate _ _ _ X _ _ _ E eq_refl) as (s & ts & tr0 & ls1 & ls2 & s' & ts' & X0 & G & ->).
    pose proof (n_run _ _ _ _ _ _ X0) as R. destruct (n_inv _ _ _ _ _ _ X0) as [_ _ _ (tl & rest & ET & EN & AT)].
    inversion G as [s1 ts1 it rs ts2 s2 its ls' ST]; subst. cbn [hd] in R.
    assert (Q : exists tk, it = NRun tk /\ ls1 = []).
    { clear - ST. destruct s as [now la q d n f p st w k]. nred. match type of ST with _ = Some (_, _, ?l) => remember l as lsx eqn:EL end.
      assert (I : In (t, LStart id) lsx) by (rewrite EL; apply in_or_app; right; now left).
      destruct it as [[]|dd code h|tp code h| |idd| | |x|tk|tk r|tk v|tk tp]; ncases ST; cbn in I; try contradiction;
        repeat (destruct I as [I | I]; try discriminate; try contradiction).
      exists tk. split; auto. destruct ls1 as [|? [|? ?]]; auto; discriminate. }
    destruct Q as (tk & -> & ->). rewrite app_nil_r, R.
    destruct ts1 as [|y ts1]; cbn [app hd] in *; match goal with Q : _ :: _ = _ :: _ |- _ => injection Q as <- <- end.
    - inversion AT as [| | |pre L A1 A2 A3 A4]; subst. destruct pre as [|z pre]; cbn in A4; injection A4 as -> <-; [reflexivity|]. inversion A2; subst; contradiction.
    - apply Forall_app in EN. destruct EN as [_ EN]. inversion EN as [|? ? E3 E4]; subst. inversion E3; subst; contradiction.
  Qed.

  (** ** The loop is never left waiting while it has something to do. *)
  Definition nstuck (c : gconfig) : Prop := forall ls c', ~ gstep nstep c ls c'.
  Definition tail_ok (it : nitem) : Prop := match it with NPush _ _ _ | NFresh _ | NNote => False | _ => True end.
  Definition nshape (t : list nitem) : Prop :=
    match t with
    | [] => True
    | h :: tl => Forall tail_ok tl \/ (h = NNote /\ exists id tl', tl = NFresh id :: tl' /\ Forall tail_ok tl')
    end.
  Lemma tail_nshape : forall t, Forall tail_ok t -> nshape t.
  Proof. intros [|h tl] F; cbn; auto. inversion F; auto. Qed.
  Lemma nacts_tail : forall acts, Forall tail_ok (map NAct acts).
  Proof. induction acts; constructor; cbn; auto. Qed.
  Lemma tacts_tail : forall acts, Forall tail_ok (map tact_item acts).
  Proof. induction acts as [|[]]; constructor; cbn; auto. Qed.
  Lemma nshape_exec : forall t0 t1 progs tr c, nexec (n_init t0 t1 progs) tr c -> Forall nshape (snd c).
  Proof.
    intros t0 t1 progs tr c X. remember (n_init t0 t1 progs) as c0 eqn:E0. induction X as [c|c tr c1 ls c2 X IH G]; subst.
    - cbn. constructor; [apply tail_nshape; repeat constructor|]. clear. induction progs; constructor; auto. apply tail_nshape, nacts_tail.
    - specialize (IH eq_refl). inversion G as [s ts1 it rest ts2 s' its ls' ST]; subst. cbn [snd] in *.
      rewrite Forall_app in *. destruct IH as [F1 F2]. split; auto. inversion F2 as [|? ? SH F3]; subst. constructor; auto.
      clear - ST SH. cbn in SH. destruct SH as [F | (-> & id & tl & -> & F)].
      + destruct s as [now la q d n f p st w k].
        destruct it as [[]|dd code h|tp code h| |idd| | |x|tk|tk r|tk v|tk tp]; ncases ST; cbn [app];
          try (apply tail_nshape; auto; fail); try (left; auto; fail); try (rewrite <- app_assoc; apply tail_nshape; apply Forall_app; split; [apply tacts_tail | constructor; cbn; auto]; fail).
        right. eauto.
      + cbn in ST. injection ST as <- <- <-. cbn. left. auto.
  Qed.
  Lemma nstuck_heads : forall s ts t, nstuck (s, ts) -> In t ts -> t = [] \/ exists it tl, t = it :: tl /\ nstep s it = None.
  Proof.
    intros s ts t ST I. destruct t as [|it tl]; auto. right. exists it, tl. split; auto.
    destruct (in_split _ _ I) as (ts1 & ts2 & ->).
    destruct (nstep s it) as [[[s' its] ls]|] eqn:E; auto. exfalso. eapply ST; econstructor; eauto.
  Qed.
  Lemma nstuck_count : forall f s ts, (forall it, tail_ok it -> f it = false) -> (forall it, nstep s it = None -> f it = false) ->
    nstuck (s, ts) -> Forall nshape ts -> count f (concat ts) = 0%nat.
  Proof.
    intros f s ts T N ST SH. apply count_zero_of. intros it I. apply in_concat in I. destruct I as (t & I1 & I2).
    rewrite Forall_forall in SH. specialize (SH _ I1). destruct (nstuck_heads _ _ _ ST I1) as [-> | (h & tl & -> & E)]; [destruct I2|].
    destruct I2 as [<- | I2]; auto. cbn in SH. destruct SH as [F | (-> & _)]; [|discriminate]. rewrite Forall_forall in F. auto.
  Qed.
  Theorem stuck_reason : forall t0 t1 progs tr s ts, nexec (n_init t0 t1 progs) tr (s, ts) -> nstuck (s, ts) ->
    exists tl rest, ts = tl :: rest /\ (forall t, In t rest -> t = []) /\
      ((tl = [] /\ n_stop s = true /\ n_queue s = []) \/
       (tl = [NWait] /\ n_queue s = [] /\ n_stop s = false) \/
       (exists t, tl = [NWaitFor (t_tp t)] /\ In t (n_queue s) /\ n_now s < t_tp t)).
  Proof.
    intros t0 t1 progs tr s ts X ST. destruct (n_inv _ _ _ _ _ _ X) as [VP VS _ (tl & rest & -> & EN & AT)].
    pose proof (nshape_exec _ _ _ _ _ X) as SH. cbn [snd] in SH.
    assert (P0 : n_pend s = 0%nat).
    { rewrite VP. apply (nstuck_count _ s); auto; [intros []; cbn; tauto|]. intros []; cbn; auto; discriminate. }
    assert (N0 : count note_of (concat rest) = 0%nat).
    { pose proof (nstuck_count note_of s _ ltac:(intros []; cbn; tauto) ltac:(intros []; cbn; auto; discriminate) ST SH) as N.
      cbn [concat] in N. rewrite count_app in N. lia. }
    exists tl, rest. split; [reflexivity|]. split.
    - intros t I. destruct (nstuck_heads _ _ t ST (or_intror I)) as [-> | (it & tl2 & -> & E)]; auto. exfalso.
      rewrite Forall_forall in EN. specialize (EN _ I). inversion EN as [|? ? E1 _]; subst.
      destruct it as [[]| | | | | | | | | | |]; cbn in E1, E; try contradiction; try discriminate; destruct (n_stop s); try discriminate.
      rewrite P0 in E. discriminate.
    - rewrite N0 in AT. destruct (nstuck_heads _ _ tl ST (or_introl eq_refl)) as [-> | (it & tl2 & -> & E)].
      + left. inversion AT as [A1 A2 A3| | |pre ? ? ? ? P]; [auto | destruct pre; discriminate].
      + remember (it :: tl2) as th eqn:ETH. destruct AT as [A1 A2 A3|A1 A2|x A1 A2|pre L A1 A2 A3].
        * discriminate.
        * right; left. injection ETH as <- <-. unfold NewThreadModel.nstep in E. destruct (n_woken s) eqn:W.
          { destruct (emptyb (n_queue s) && negb (n_stop s)); discriminate. }
          split; auto. destruct (n_queue s) as [|t q]; [|exfalso; destruct A2 as [A2 | A2]; [left; discriminate | discriminate | lia]].
          split; auto. destruct (n_stop s); auto. destruct A2 as [A2 | A2]; [now right | discriminate | lia].
        * right; right. injection ETH as <- <-. destruct A2 as (t & A2 & A3). exists t. subst x. split; auto. split; auto.
          unfold NewThreadModel.nstep in E. destruct (Z.leb_spec (t_tp t) (n_now s)); [discriminate | lia].
        * exfalso. destruct pre as [|z pre]; cbn in ETH; injection ETH as -> <-.
          -- destruct it as [[]|dd code h|tp code h| |idd| | |x|tk|tk r|tk v|tk tp]; try contradiction; cbn in E; try discriminate.
             ++ destruct (beh (t_code tk) (t_runs tk)). discriminate.
             ++ destruct r; discriminate.
             ++ destruct (dead (n_dead s) tk); [discriminate|]. destruct (can_now (t_k tk) v && negb (n_fresh s)); discriminate.
          -- inversion A2 as [|? ? A4 A5]; subst. destruct it as [[]| | | | | | | | | | |]; cbn in A4, E; try contradiction; try discriminate; destruct (n_stop s); try discriminate;
             try (rewrite P0 in E; discriminate); unfold dead in E; cbn in E; destruct (existsb (Nat.eqb h) (n_dead s)); discriminate.
  Qed.

  (** ** Repeating without looking at the queue *)
  Definition fresh_ok (tr : list ltev) (id : nat) : Prop :=
    (exists h k tp, happened tr (LCall VNested id h k tp)) \/
    ((exists h k tp, happened tr (LCall VWorker id h k tp)) /\ ~ happened tr (LFresh id)).
  Definition is_hand (it : nitem) : bool := match it with NRun _ | NRet _ _ | NRes _ _ => true | _ => false end.
  Definition is_loop (it : nitem) : bool :=
    match it with NTop | NWait | NWaitFor _ | NRun _ | NRet _ _ | NRes _ _ | NReIns _ _ => true | _ => false end.
  Definition fresh_bound (n : nat) (it : nitem) : Prop := match it with NFresh id => (id < n)%nat | _ => True end.
  Record FInv (s : nstate) (l : list nitem) (tr : list ltev) : Prop := {
    fi_loop : (count is_loop l <= 1)%nat;
    fi_items : Forall (fresh_bound (n_next s)) l;
    fi_past : forall id, happened tr (LFresh id) -> (id < n_next s)%nat;
    fi_fresh : (1 <= count is_hand l)%nat -> n_fresh s = false -> forall t, In t (n_queue s) -> fresh_ok tr (t_id t)
  }.
  Lemma hand_loop : forall l, (count is_hand l <= count is_loop l)%nat.
  Proof. induction l as [|x l IH]; auto. rewrite !count_cons. destruct x; cbn; lia. Qed.
  Lemma tacts_cnt : forall f acts, (forall a, f (NAct a) = false) -> (forall a b c, f (NNest a b c) = false) -> count f (map tact_item acts) = 0%nat.
  Proof. intros f acts H1 H2. induction acts as [|[] acts IH]; auto; cbn [map tact_item]; rewrite count_cons, ?H1, ?H2, IH; auto. Qed.
  Lemma fresh_weak : forall tr ls id, fresh_ok tr id -> ~ happened ls (LFresh id) -> fresh_ok (tr ++ ls) id.
  Proof.
    intros tr ls id [(h & k & tp & H) | [(h & k & tp & H) N]] L; [left | right; split]; try (exists h, k, tp; apply happened_app; auto).
    intro H2. apply happened_app in H2. tauto.
  Qed.
  Lemma f_inv : forall t0 t1 progs tr c, nexec (n_init t0 t1 progs) tr c -> FInv (fst c) (concat (snd c)) tr.
  Proof.
    intros t0 t1 progs tr c X. eapply gexec_inv with (istep := nstep) (Inv := FInv); [ | | exact X | ].
    - intros s l l' tr' P [A B C D]. split; auto.
      + now rewrite <- (count_perm _ _ _ P).
      + rewrite Forall_forall in *. intros x I. apply B. apply (Permutation_in _ (Permutation_sym P) I).
      + rewrite <- (count_perm _ _ _ P). auto.
    - clear. intros s it l tr s' its ls [A B C D] E. inversion B as [|? ? B1 B2]; subst.
      assert (MN : (n_next s <= n_next s')%nat).
      { clear - E. destruct s as [now la q d n f p st w k]. destruct it as [[]| | | | | | | | | | |]; ncases E; nred; lia. }
      assert (LO : (count is_loop its <= count is_loop [it])%nat).
      { clear - E. destruct s as [now la q d n f p st w k]. destruct it as [[]| | | | | | | | | | |]; ncases E; rewrite ?count_app, ?tacts_cnt by auto; unfold count; cbn; lia. }
      change (it :: l) with ([it] ++ l) in *. rewrite !count_app in *. split.
      + rewrite count_app. lia.
      + apply Forall_app. split.
        * clear - E. assert (FT : forall n acts, Forall (fresh_bound n) (map tact_item acts)) by (intros n acts; induction acts as [|[]]; constructor; cbn; auto).
          destruct s as [now la q d n f p st w k]. destruct it as [[]| | | | | | | | | | |]; ncases E; try apply Forall_app; repeat constructor; nred; auto.
        * rewrite Forall_forall in *. intros x I. specialize (B2 _ I). destruct x; cbn in *; auto. lia.
      + intros id H. apply happened_app in H. destruct H as [H | H]; [specialize (C _ H); lia|].
        clear - E H B1. destruct s as [now la q d n f p st w k]. destruct it as [[]|dd code h|tp code h| |idd| | |x|tk|tk r|tk v|tk tp]; ncases E; nred; destruct H as (t9 & H); cbn in H;
          try contradiction; repeat (destruct H as [H | H]; try discriminate; try contradiction).
        injection H as <- <-. auto.
      + rewrite count_app. intros H F t I. pose proof (hand_loop l) as HL. unfold count in HL.
        destruct s as [now la q d n f p st w k]. nred.
        assert (W : ~ happened ls (LFresh (t_id t)) -> (In t q /\ n_fresh s' = f /\ (1 <= count is_hand [it] + count is_hand l)%nat) -> fresh_ok (tr ++ ls) (t_id t)).
        { intros W1 (W2 & W3 & W4). apply fresh_weak; auto. apply D; auto. congruence. }
        assert (NN : forall c x, happened [(c, x)] (LFresh (t_id t)) -> x = LFresh (t_id t)) by (intros; now apply happened_one in H0).
        destruct it as [[]|dd code h|tp code h| |idd| | |x|tk|tk r|tk v|tk tp]; ncases E; nred; rewrite ?count_app, ?tacts_cnt in H by auto; unfold count in H, LO, A; cbn in H, LO, A; try discriminate;
          try (apply W; [intros (t9 & H9); cbn in H9; repeat (destruct H9 as [H9 | H9]; try discriminate; try contradiction) | repeat split; auto; cbn; auto; fail]);
          try (exfalso; lia).
        all: try (apply t_ins_in in I; destruct I as [-> | I]; [cbn; try (left; do 3 eexists; apply happened_app; right; eexists; left; reflexivity) |]).
        all: try (apply W; [intros (t9 & H9); cbn in H9; repeat (destruct H9 as [H9 | H9]; try discriminate; try contradiction) | repeat split; auto; cbn; auto; fail]).
        all: try (match goal with F : negb (emptyb ?q) = false |- _ => destruct q; [destruct I | discriminate] end).
        right. split; [do 3 eexists; apply happened_app; right; eexists; left; reflexivity|].
        intro H9. apply happened_app in H9. destruct H9 as [H9 | (t9 & [H9 | []])]; [|discriminate]. specialize (C _ H9). lia.
    - cbn. split.
      + cbn. rewrite count_cons. cbn. assert (Q : count is_loop (concat (map (map NAct) progs)) = 0%nat).
        { clear. induction progs as [|p progs IH]; auto. cbn. rewrite count_app, IH. clear. induction p; auto. }
        lia.
      + constructor; cbn; auto. apply Forall_forall. intros x I. apply in_concat in I. destruct I as (p & I1 & I2). apply in_map_iff in I1. destruct I1 as (p' & <- & _).
        apply in_map_iff in I2. destruct I2 as (? & <- & _). exact I.
      + intros id (t & []).
      + intros _ _ t [].
  Qed.
  Theorem direct_repeat : forall t0 t1 progs tr c a t id b, t1 <= t0 -> nexec (n_init t0 t1 progs) tr c ->
    tr = a ++ (t, LDirect id) :: b -> forall w, In w (waits a) -> fresh_ok a (snd w).
  Proof.
    intros t0 t1 progs tr c a t id b L X E w I. destruct (n_locate _ _ _ X _ _ _ E eq_refl) as (s & ts & tr0 & ls1 & ls2 & s' & ts' & X0 & G & ->).
    pose proof (f_inv _ _ _ _ _ X0) as [_ _ _ D]. pose proof (n_abs_exec _ _ _ _ _ _ L X0) as A. pose proof (f_queue _ _ _ A) as Q.
    inversion G as [s1 ts1 it rs ts2 s2 its ls' ST]; subst. cbn [fst snd] in *.
    assert (R : (exists tk v, it = NRes tk v) /\ n_fresh s = false /\ ls1 = []).
    { clear - ST. destruct s as [now la q d n f p st w k]. nred. match type of ST with _ = Some (_, _, ?l) => remember l as lsx eqn:EL end.
      assert (I : In (t, LDirect id) lsx) by (rewrite EL; apply in_or_app; right; now left).
      destruct it as [[]|dd code h|tp code h| |idd| | |x|tk|tk r|tk v|tk tp]; ncases ST; cbn in I; try contradiction;
        repeat (destruct I as [I | I]; try discriminate; try contradiction).
      split; [eauto|]. split; [destruct f; auto; rewrite andb_false_r in *; discriminate|]. destruct ls1 as [|? [|? ?]]; auto; discriminate. }
    destruct R as ((tk & v & ->) & F & ->). rewrite app_nil_r in *.
    assert (IQ : In (snd w) (tids (n_queue s))).
    { rewrite <- key_ids. change (n_queue s) with (a_queue (n_abs s (concat (ts1 ++ (NRes tk v :: rs) :: ts2)))). rewrite Q, idsw_sort. now apply in_map. }
    unfold tids in IQ. apply in_map_iff in IQ. destruct IQ as (t2 & <- & IQ). apply D; auto.
    rewrite concat_app, count_app. cbn [concat app]. rewrite count_cons. cbn. lia.
  Qed.
End NewThread.
