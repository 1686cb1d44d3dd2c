(** The protocol of is_inside_drain keeps exactly one thread in charge. *)
From Coq Require Import Permutation.
From Verif Require Import Base Machine MachineProofs Concur ResubSpec ResubModel.

Record rop_ok {E V} (o : rop E V) : Prop := ROpOk {
  ok_pre : forall x x' e, rpre o x = (x', Some e) -> is_term e = true;
  ok_on : forall x e x' e', ron o x e = (x', REnd e') -> is_term e' = true
}.

Inductive rq := QEnd | QAgain | QOpen.
Section Gen.
  Context {E V : Type} (o : rop E V).
  Fixpoint evs (x : rx o) (l : list E) : list (ev V) * rx o * rq :=
    match l with
    | [] => ([], x, QOpen)
    | e :: r => match ron o x e with
                | (x', RNext v) => let '(out, y, q) := evs x' r in (Next v :: out, y, q)
                | (x', REnd e) => ([e], x', QEnd)
                | (x', RAgain) => ([], x', QAgain)
                | (x', RNone) => evs x' r
                end
    end.
  Fixpoint gen (x : rx o) (script : list (attempt E)) : list (ev V) :=
    match rpre o x with
    | (_, Some e) => [e]
    | (x', None) =>
        match script with
        | [] => []
        | Calls now later :: r =>
            match evs x' (now ++ later) with (out, y, QAgain) => out ++ gen y r | (out, _, _) => out end
        | Throws now z :: _ =>
            match evs x' now with (out, _, QEnd) => out | (out, _, _) => out ++ [Err z] end
        end
    end.
End Gen.

Lemma skipn_nth : forall A (l : list A) k d, k < length l -> skipn k l = nth k l d :: skipn (S k) l.
Proof. induction l; destruct k; cbn; intros; try lia; auto. apply IHl. lia. Qed.

Definition pairs (n : nat) : list slab := flat_map (fun k => [SSub k []; SRet k]) (seq 0 n).
Lemma pairs_S : forall n, pairs (S n) = pairs n ++ [SSub n []; SRet n].
Proof. intros. unfold pairs. rewrite seq_S, flat_map_app. reflexivity. Qed.

Section Proofs.
  Context {E V : Type} (o : rop E V) (D : machine V) (script : list (attempt E)) (x0 : rx o) (d0 : mst D) (kills : nat).
  Hypothesis OK : rop_ok o.
  Hypothesis LD : lawful D.
  Let att := att script.
  Let spec := gen o x0 script.
  Notation st := (rst o D).

  Definition isX (i : ritem) : bool := match i with IClear _ | IXchg _ => true | _ => false end.
  Definition isC (i : ritem) : bool := match i with IClear _ => true | _ => false end.
  Definition isL (i : ritem) : bool := match i with ISync _ | ILast _ => true | _ => false end.
  Definition isS (i : ritem) : bool := match i with ISync _ => true | _ => false end.
  Definition isD (i : ritem) : bool := match i with IDrain => true | _ => false end.
  Definition isK (i : ritem) : bool := match i with IKill => true | _ => false end.

  (** What is still to come while attempt c runs, with l still to be emitted. *)
  Definition run_future (x : rx o) (c : nat) (l : list E) : list (ev V) :=
    match att c with
    | Calls _ _ => match evs o x l with (out, y, QAgain) => out ++ gen o y (skipn (S c) script) | (out, _, _) => out end
    | Throws _ z => match evs o x l with (out, _, QEnd) => out | (out, _, _) => out ++ [Err z] end
    end.
  Definition again_future (x : rx o) (k : nat) : list (ev V) :=
    match k with
    | 0 => gen o x script
    | S c => match att c with Calls _ _ => gen o x (skipn (S c) script) | Throws _ z => [Err z] end
    end.
  Definition is_throw (c : nat) : Prop := match att c with Throws _ _ => True | _ => False end.

  Inductive phase (s : st) (l : list ritem) (fut : list (ev V)) : Prop :=
  | PRun : forall c, r_k s = S c -> (forall k, k < c -> r_fin s k = true) -> r_fin s c = false ->
      count isX l = 0 -> count isD l = 0 ->
      (r_in s = true /\ count isL l = 1 \/ r_in s = false /\ count isL l = 0 /\ ~ is_throw c) ->
      (r_spawned s c = false /\ count isS l = 1 \/ r_spawned s c = true /\ count isS l = 0 /\ r_syn s c = []) ->
      fut = run_future (r_x s) c (r_syn s c ++ r_asy s c) -> phase s l fut
  | PAgain : (forall k, k < r_k s -> r_fin s k = true) ->
      (r_in s = true /\ count isX l = 1 /\ count isL l = 1 /\ count isD l = 0 \/
       r_in s = false /\ count isX l + count isL l + count isD l = 1) ->
      (count isC l = 1 \/ r_held s = []) ->
      (forall c, r_k s = S c -> is_throw c -> count isL l = 1) ->
      fut = again_future (r_x s) (r_k s) -> phase s l fut.

  Record common (s : st) (l : list ritem) (tr : list slab) : Prop := Common {
    cm_L : forall k, In (ISync k) l \/ In (ILast k) l -> S k = r_k s;
    cm_tr : count isL l = 0 /\ tr = pairs (r_k s) \/ (exists c, count isL l = 1 /\ r_k s = S c /\ tr = pairs c ++ [SSub c []]);
    cm_new : forall k, r_k s <= k -> r_fin s k = false /\ r_spawned s k = false /\ r_syn s k = syn_of (att k) /\ r_asy s k = asy_of (att k);
    cm_asy : forall k, r_asy s k <> [] -> In (IAsync k) l;
    cm_kill : kills = 0 -> count isK l = 0;
    cm_thr : forall k, is_throw k -> r_asy s k = []
  }.
  Definition Inv (s : st) (l : list ritem) (tr : list slab) : Prop :=
    common s l tr /\
    (mdisp D (r_d s) = false /\ (exists outs fut, spec = outs ++ fut /\ r_d s = mrun D d0 outs /\ phase s l fut) \/
     mdisp D (r_d s) = true /\ (exists outs fut, spec = outs ++ fut /\ (r_d s = mrun D d0 outs \/ kills <> 0 /\ r_d s = mkill D (mrun D d0 outs)))).

  Lemma common_perm : forall s l l' tr, Permutation l l' -> common s l tr -> common s l' tr.
  Proof.
    intros s l l' tr P [A B C F G H0].
    split; auto; rewrite <- ?(count_perm _ _ _ P); auto.
    - intros k [I|I]; apply A; [left|right]; exact (Permutation_in _ (Permutation_sym P) I).
    - intros k N. eapply Permutation_in; eauto.
  Qed.
  Lemma Inv_perm : forall s l l' tr, Permutation l l' -> Inv s l tr -> Inv s l' tr.
  Proof.
    intros s l l' tr P (C & H). split; [eauto using common_perm|].
    destruct H as [(A & outs & fut & S1 & S2 & PH)|H]; [left|right; auto].
    split; auto. exists outs, fut. split; auto. split; auto.
    destruct PH; [eapply PRun|eapply PAgain]; rewrite <- ?(count_perm _ _ _ P); eauto.
  Qed.

  Ltac cnt := rewrite ?count_app, ?count_cons, ?count_nil in *; cbn [isX isC isL isS isD isK] in *.

  (** An event that arrives from attempt k. *)
  Lemma evs_cons : forall x e l, evs o x (e :: l) =
    match ron o x e with
    | (x', RNext v) => let '(out, y, q) := evs o x' l in (Next v :: out, y, q)
    | (x', REnd e) => ([e], x', QEnd)
    | (x', RAgain) => ([], x', QAgain)
    | (x', RNone) => evs o x' l
    end.
  Proof. reflexivity. Qed.
  Lemma run_future_next : forall x c e l x' v, ron o x e = (x', RNext v) -> run_future x c (e :: l) = Next v :: run_future x' c l.
  Proof.
    intros. unfold run_future. rewrite evs_cons, H. destruct (evs o x' l) as [[out y] [| |]]; destruct (att c); reflexivity.
  Qed.
  Lemma run_future_none : forall x c e l x', ron o x e = (x', RNone) -> run_future x c (e :: l) = run_future x' c l.
  Proof. intros. unfold run_future. rewrite evs_cons, H. reflexivity. Qed.
  Lemma run_future_end : forall x c e l x' e', ron o x e = (x', REnd e') -> run_future x c (e :: l) = [e'].
  Proof. intros. unfold run_future. rewrite evs_cons, H. destruct (att c); reflexivity. Qed.
  Lemma run_future_again : forall x c e l x', ron o x e = (x', RAgain) -> run_future x c (e :: l) = again_future x' (S c).
  Proof. intros. unfold run_future, again_future. rewrite evs_cons, H. destruct (att c); reflexivity. Qed.

  Lemma run_snoc : forall outs e, mstep D (mrun D d0 outs) e = mrun D d0 (outs ++ [e]).
  Proof. intros. now rewrite mrun_app. Qed.

  (** Receiving: [s] already has the event removed from attempt k's lists. *)
  Lemma receive_dead : forall s k e, mdisp D (r_d s) = true -> receive o D s k e = (s, []).
  Proof. intros. unfold receive. rewrite H. now rewrite orb_true_r. Qed.
  Lemma receive_fin : forall s k e, r_fin s k = true -> receive o D s k e = (s, []).
  Proof. intros. unfold receive. now rewrite H. Qed.

  Lemma common_receive : forall s k e s' is it l tr, common s (it :: l) tr -> k < r_k s ->
    receive o D s k e = (s', is) -> common s' ((is ++ [it]) ++ l) tr.
  Proof.
    intros s k e s' is it l tr [A B C F G H0] K R.
    assert (Q : (is = [] \/ is = [IClear k]) /\ r_k s' = r_k s /\ r_spawned s' = r_spawned s /\ r_syn s' = r_syn s /\ r_asy s' = r_asy s /\
                (forall i, k <> i -> r_fin s' i = r_fin s i)).
    { unfold receive in R. destruct (r_fin s k || mdisp D (r_d s)); [inversion R; subst; auto 10|].
      destruct (ron o (r_x s) e) as [x [v|t| |]]; inversion R; subst; cbn; repeat split; auto;
        intros i Hi; unfold off; apply not_eq_sym, Nat.eqb_neq in Hi; now rewrite Hi. }
    destruct Q as (Qi & Qk & Qs & Qy & Qa & Qf).
    assert (Q2 : forall i, In i ((is ++ [it]) ++ l) <-> i = IClear k /\ is <> [] \/ In i (it :: l)).
    { intro i. rewrite <- app_assoc. rewrite in_app_iff. cbn. destruct Qi as [->| ->]; cbn; intuition (try congruence). }
    assert (Q3 : forall f, f (IClear k) = false -> count f ((is ++ [it]) ++ l) = count f (it :: l)).
    { intros f Hf. rewrite !count_app, !count_cons, count_nil. destruct Qi as [->| ->]; rewrite ?count_cons, ?count_nil, ?Hf; lia. }
    split.
    - intros j I. rewrite Qk. apply A. destruct I as [I|I]; apply Q2 in I as [(I & _)|I]; try discriminate; auto.
    - rewrite Qk, Q3 by reflexivity. exact B.
    - intros j J. rewrite Qk in J. rewrite Qs, Qy, Qa, Qf by lia. apply C. lia.
    - intros j J. rewrite Qa in J. apply Q2. right. auto.
    - intro K0. rewrite Q3 by reflexivity. auto.
    - rewrite Qa. auto.
  Qed.

  Definition tail (s : st) (l : list ritem) : Prop :=
    mdisp D (r_d s) = false /\ (exists outs fut, spec = outs ++ fut /\ r_d s = mrun D d0 outs /\ phase s l fut) \/
    mdisp D (r_d s) = true /\ (exists outs fut, spec = outs ++ fut /\ (r_d s = mrun D d0 outs \/ kills <> 0 /\ r_d s = mkill D (mrun D d0 outs))).

  Lemma tail_receive : forall s k e s' is it l outs,
    mdisp D (r_d s) = false -> r_d s = mrun D d0 outs -> r_k s = S k ->
    (forall j, j < k -> r_fin s j = true) -> r_fin s k = false ->
    count isX (it :: l) = 0 -> count isD (it :: l) = 0 ->
    (r_in s = true /\ count isL (it :: l) = 1 \/ r_in s = false /\ count isL (it :: l) = 0 /\ ~ is_throw k) ->
    (r_spawned s k = false /\ count isS (it :: l) = 1 \/ r_spawned s k = true /\ count isS (it :: l) = 0 /\ r_syn s k = []) ->
    spec = outs ++ run_future (r_x s) k (e :: r_syn s k ++ r_asy s k) ->
    receive o D s k e = (s', is) -> tail s' ((is ++ [it]) ++ l).
  Proof.
    intros s k e s' is it l outs DD DM K FJ FK X0 D0 IN SP SE R.
    unfold receive in R. rewrite FK, DD in R. cbn [orb] in R.
    destruct (ron o (r_x s) e) as [x [v|t| |]] eqn:RO; inversion R; subst s' is; clear R.
    - (* value *)
      unfold tail. cbn [set r_d r_fin r_x r_in r_k r_spawned r_syn r_asy r_held].
      rewrite (run_future_next _ _ _ _ _ _ RO) in SE.
      destruct (mdisp D (mstep D (r_d s) (Next v))) eqn:DN; [right|left]; split; auto.
      + exists (outs ++ [Next v]), (run_future x k (r_syn s k ++ r_asy s k)). rewrite <- app_assoc. split; auto.
        left. rewrite DM. apply run_snoc.
      + exists (outs ++ [Next v]), (run_future x k (r_syn s k ++ r_asy s k)). rewrite <- app_assoc. split; auto.
        split; [rewrite DM; apply run_snoc|]. eapply PRun; cbn; eauto.
    - (* end *)
      right. cbn [set r_d]. rewrite (run_future_end _ _ _ _ _ _ RO) in SE. split.
      + apply (law_term D LD). eapply ok_on; eauto.
      + exists (outs ++ [t]), []. rewrite app_nil_r. split; auto. left. rewrite DM. apply run_snoc.
    - (* again *)
      left. cbn [set r_d]. rewrite (run_future_again _ _ _ _ _ RO) in SE. split; auto.
      exists outs, (again_future x (S k)). split; auto. split; auto.
      apply PAgain; cbn [set r_d r_fin r_x r_in r_k r_spawned r_syn r_asy r_held]; rewrite ?K; auto.
      + intros j J. unfold off. destruct (j =? k) eqn:Q; auto. apply Nat.eqb_neq in Q. apply FJ. lia.
      + cnt. destruct IN as [(A & B)|(A & B & C)]; [left|right]; repeat split; auto; lia.
      + left. assert (count isC (it :: l) <= count isX (it :: l)).
        { clear. induction (it :: l) as [|y z IH]; auto. cnt. destruct y; cbn; lia. }
        cnt. destruct it; cbn in *; lia.
      + intros c Q T. injection Q as <-. cnt. destruct IN as [(A & B)|(A & B & C)]; [lia|contradiction].
    - (* nothing *)
      left. cbn [set r_d]. rewrite (run_future_none _ _ _ _ _ RO) in SE. split; auto.
      exists outs, (run_future x k (r_syn s k ++ r_asy s k)). split; auto. split; auto. eapply PRun; cbn; eauto.
  Qed.

  Lemma count_C_le_X : forall l, count isC l <= count isX l.
  Proof. induction l as [|y z IH]; auto. cnt. destruct y; cbn; lia. Qed.
  Lemma count_S_le_L : forall l, count isS l <= count isL l.
  Proof. induction l as [|y z IH]; auto. cnt. destruct y; cbn; lia. Qed.

  Lemma common_change : forall s s' it its l tr, common s (it :: l) tr ->
    r_k s' = r_k s -> r_spawned s' = r_spawned s -> r_syn s' = r_syn s -> r_asy s' = r_asy s -> r_fin s' = r_fin s ->
    isL it = false -> (forall k, it = IAsync k -> r_asy s k = []) ->
    (forall i, In i its -> isL i = false /\ isK i = false) -> common s' (its ++ l) tr.
  Proof.
    intros s s' it its l tr [A B C F G H0] E1 E2 E3 E4 E5 NL NA NI.
    assert (CL : count isL its = 0) by (apply count_zero_of; intros i Hi; apply NI; auto).
    assert (CK : count isK its = 0) by (apply count_zero_of; intros i Hi; apply NI; auto).
    split; rewrite ?E1, ?E2, ?E3, ?E4, ?E5; auto.
    - intros k [I|I]; apply A; apply in_app_iff in I as [I|I]; try (apply NI in I as [I _]; discriminate); [left|right]; now right.
    - rewrite count_cons, NL in B. rewrite count_app, CL. exact B.
    - intros k Hk. apply in_app_iff. destruct (F k Hk) as [->|I]; auto. now rewrite (NA k) in Hk by auto.
    - intro K0. specialize (G K0). rewrite count_cons in G. rewrite count_app, CK. lia.
  Qed.
  Ltac noitems := let i := fresh in let Hi := fresh in intros i Hi; repeat (destruct Hi as [<-|Hi]; [split; reflexivity|]); destruct Hi.

  Lemma Inv_step : forall s it l tr s' its ls, Inv s (it :: l) tr -> rstep o D script s it = Some (s', its, ls) ->
    Inv s' (its ++ l) (tr ++ ls).
  Proof.
    intros s it l tr s' its ls (CM & T) I. destruct it as [|k|k|k|k|k|]; cbn [rstep] in I.
    - (* IDrain *)
      destruct (mdisp D (r_d s)) eqn:DD.
      { inversion I; subst. rewrite app_nil_r. cbn [app]. split; [|right; destruct T as [(A & _)|(_ & T)]; [discriminate|split; auto]].
        eapply (common_change _ _ _ []); eauto; [discriminate|noitems]. }
      destruct T as [(_ & outs & fut & SE & DM & PH)|(A & _)]; [|congruence].
      destruct PH as [c K FJ FK X0 D0 IN SP FU|FJ IN HE TH FU]; [cnt; lia|].
      assert (AF : fut = gen o (r_x s) (skipn (r_k s) script) /\ r_held s = [] /\ count isX l = 0 /\ count isD l = 0 /\ count isL l = 0).
      { pose proof (count_C_le_X (IDrain :: l)). cnt. subst fut. unfold again_future, is_throw in *. destruct (r_k s) as [|c] eqn:RK.
        - repeat split; try lia. destruct HE; auto; lia.
        - specialize (TH c eq_refl). destruct (att c); repeat split; try lia; try (destruct HE; auto; lia); specialize (TH Logic.I); lia. }
      destruct AF as (-> & HN & X0 & D0 & L0). clear FU.
      destruct (rpre o (r_x s)) as [x [t|]] eqn:PR; inversion I; subst; clear I.
      + rewrite app_nil_r. split.
        * eapply (common_change _ _ _ []); eauto; [discriminate|noitems].
        * right. cbn [set r_d]. split; [apply (law_term D LD); eapply ok_pre; eauto|].
          exists (outs ++ [t]), []. rewrite app_nil_r. split; [|left; rewrite DM; apply run_snoc].
          rewrite SE. f_equal. destruct (skipn (r_k s) script); cbn; now rewrite PR.
      + destruct CM as [A B C F G H0]. destruct (C (r_k s) (le_n _)) as (C1 & C2 & C3 & C4). split.
        * split; cbn [r_d r_fin r_x r_in r_k r_spawned r_syn r_asy r_held app].
          -- intros j [[J|J]|[J|J]]; try (injection J as <-; auto); try discriminate.
             all: exfalso; assert (Z : 1 <= count isL l) by (eapply count_in; [exact J|reflexivity]); lia.
          -- right. exists (r_k s). cnt. repeat split; try lia. destruct B as [(B1 & ->)|(c & B1 & _)]; [|lia]. now rewrite HN.
          -- intros j J. apply C. lia.
          -- intros j J. destruct (F j J) as [Q|Q]; [discriminate|now right].
          -- intro K0. specialize (G K0). cnt. lia.
          -- exact H0.
        * left. cbn [r_d]. split; auto. exists outs, (gen o (r_x s) (skipn (r_k s) script)). split; auto. split; auto.
          eapply (PRun _ _ _ (r_k s)); cbn [r_d r_fin r_x r_in r_k r_spawned r_syn r_asy r_held app]; auto; cnt; try lia.
          -- left. split; auto. pose proof (count_S_le_L l). lia.
          -- rewrite C3, C4. unfold run_future. destruct (le_lt_dec (length script) (r_k s)) as [LE|LT1].
             ++ assert (AT : att (r_k s) = Calls [] []) by (unfold att, ResubModel.att; now rewrite nth_overflow).
                rewrite AT. cbn. rewrite !skipn_all2 by lia. cbn. now rewrite PR.
             ++ rewrite (skipn_nth _ _ _ (Calls [] [])) by lia. fold (ResubModel.att script (r_k s)). fold (att (r_k s)).
                cbn [gen]. rewrite PR. destruct (att (r_k s)); cbn [syn_of asy_of]; rewrite ?app_nil_r; reflexivity.
    - (* ISync *)
      assert (K : S k = r_k s) by (apply (cm_L _ _ _ CM); left; now left).
      destruct (r_syn s k) as [|e r] eqn:SY.
      + inversion I; subst; clear I. rewrite app_nil_r. split.
        * destruct CM as [A B C F G H0]. split; cbn [r_d r_fin r_x r_in r_k r_spawned r_syn r_asy r_held app]; cnt; auto.
          -- intros j [[J|J]|[J|J]]; try discriminate; try (injection J as <-; auto); apply A; [left|right]; now right.
          -- intros j J. unfold off. destruct (j =? k) eqn:Q; [apply Nat.eqb_eq in Q; lia|]. apply C. lia.
          -- intros j J. destruct (F j J) as [Q|Q]; [discriminate|now right].
        * destruct T as [(DD & outs & fut & SE & DM & PH)|(DD & T)]; [left|right; auto]. split; auto.
          exists outs, fut. split; auto. split; auto.
          destruct PH as [c K1 FJ FK X0 D0 IN SP FU|FJ IN HE TH FU].
          -- assert (c = k) by lia. subst c. eapply (PRun _ _ _ k); cbn [r_d r_fin r_x r_in r_k r_spawned r_syn r_asy r_held app]; eauto; cnt; try lia.
             right. unfold off. rewrite Nat.eqb_refl. repeat split; auto. pose proof (count_S_le_L l). lia.
          -- apply PAgain; cbn [r_d r_fin r_x r_in r_k r_spawned r_syn r_asy r_held app]; auto; cnt; auto.
      + destruct (receive o D _ k e) as [s1 is] eqn:R. inversion I; subst s' its ls; clear I. rewrite app_nil_r.
        set (s0 := RS _ _ _ _ _ _ _ _ _) in R.
        assert (CM0 : common s0 (ISync k :: l) tr).
        { destruct CM as [A B C F G H0]. split; auto; cbn.
          intros j J. unfold upd. destruct (j =? k) eqn:Q; [apply Nat.eqb_eq in Q; lia|]. apply C. lia. }
        split; [eapply common_receive; eauto; cbn; lia|].
        destruct T as [(DD & outs & fut & SE & DM & PH)|(DD & T)].
        2:{ rewrite receive_dead in R by auto. injection R as <- <-. right. split; auto. }
        destruct PH as [c K1 FJ FK X0 D0 IN SP FU|FJ IN HE TH FU].
        * assert (c = k) by lia. subst c.
          eapply (tail_receive s0 k e s1 is (ISync k) l outs); cbn; eauto.
          -- destruct SP as [SP|(_ & SP & _)]; [auto|cnt; lia].
          -- unfold upd. rewrite Nat.eqb_refl. rewrite SE, FU, SY. reflexivity.
        * rewrite receive_fin in R by (cbn; apply FJ; lia). injection R as <- <-. left. split; auto.
          exists outs, fut. split; auto. split; auto. apply PAgain; cbn; auto.
    - (* ILast *)
      assert (K : S k = r_k s) by (apply (cm_L _ _ _ CM); right; now left).
      assert (L0 : count isL l = 0 /\ tr ++ [SRet k] = pairs (r_k s)).
      { destruct (cm_tr _ _ _ CM) as [(B & _)|(c & B1 & B2 & ->)]; cnt; [lia|]. split; [lia|].
        assert (c = k) by lia. subst c. rewrite B2, pairs_S, <- app_assoc. reflexivity. }
      destruct L0 as (L0 & TR).
      assert (CM1 : forall s1 its1, r_k s1 = r_k s -> r_spawned s1 = r_spawned s -> r_syn s1 = r_syn s -> r_asy s1 = r_asy s -> r_fin s1 = r_fin s ->
                (its1 = [] \/ its1 = [IDrain]) -> common s1 (its1 ++ l) (tr ++ [SRet k])).
      { intros s1 its1 E1 E2 E3 E4 E5 HI. destruct CM as [A B C F G H0]. split; rewrite ?E1, ?E2, ?E3, ?E4, ?E5; auto.
        - intros j [J|J]; apply A; [left|right]; right; destruct HI as [->| ->]; cbn in J; auto; destruct J as [J|J]; auto; discriminate.
        - left. split; auto. destruct HI as [->| ->]; cnt; lia.
        - intros j J. destruct (F j J) as [Q|Q]; [discriminate|]. apply in_app_iff. auto.
        - intro K0. specialize (G K0). destruct HI as [->| ->]; cnt; lia. }
      fold (att k) in I. change (ResubModel.att script k) with (att k) in I. destruct (att k) as [now later|now z] eqn:AT; inversion I; subst; clear I.
      + split; [apply CM1; auto; destruct (r_in s); auto|].
        destruct T as [(DD & outs & fut & SE & DM & PH)|(DD & T)]; [left|right; auto]. split; auto.
        exists outs, fut. split; auto. split; auto.
        destruct PH as [c K1 FJ FK X0 D0 IN SP FU|FJ IN HE TH FU].
        * assert (c = k) by lia. subst c. destruct IN as [(IN & L1)|(_ & L1 & _)]; [|cnt; lia]. rewrite IN. cbn [app].
          eapply (PRun _ _ _ k); cbn [r_d r_fin r_x r_in r_k r_spawned r_syn r_asy r_held app]; eauto; cnt; try lia.
          right. repeat split; auto. unfold is_throw. now rewrite AT.
        * apply PAgain; cbn [r_d r_fin r_x r_in r_k r_spawned r_syn r_asy r_held app]; auto.
          -- right. split; auto. destruct IN as [(-> & IN)|(-> & IN)]; cnt; lia.
          -- destruct (r_in s); cnt; auto.
          -- intros c E1 T1. assert (c = k) by lia. subst c. unfold is_throw in T1. now rewrite AT in T1.
      + split; [apply (CM1 _ []); auto|]. cbn [app].
        destruct T as [(DD & outs & fut & SE & DM & PH)|(DD & outs & fut & SE & T)]; right; cbn [set r_d].
        * split; [apply (law_term D LD); reflexivity|]. 
          destruct PH as [c K1 FJ FK X0 D0 IN SP FU|FJ IN HE TH FU].
          -- assert (c = k) by lia. subst c.
             unfold run_future in FU. rewrite AT in FU.
             destruct SP as [(_ & SP)|(_ & _ & SP)]; [cnt; pose proof (count_S_le_L l); lia|].
             assert (AS : r_asy s k = []).
             { apply (cm_thr _ _ _ CM). unfold is_throw. now rewrite AT. }
             rewrite SP, AS in FU. cbn in FU. subst fut.
             exists (outs ++ [Err z]), []. rewrite app_nil_r. split; auto. left. rewrite DM. apply run_snoc.
          -- unfold again_future in FU. rewrite <- K, AT in FU. subst fut.
             exists (outs ++ [Err z]), []. rewrite app_nil_r. split; auto. left. rewrite DM. apply run_snoc.
        * rewrite (law_dead D LD) by auto. split; auto. exists outs, fut. auto.
    - (* IAsync *)
      destruct (r_spawned s k) eqn:SK; [|discriminate].
      assert (K : k < r_k s).
      { destruct (le_lt_dec (r_k s) k) as [Q|]; auto. apply (cm_new _ _ _ CM) in Q. destruct Q as (_ & Q & _). congruence. }
      destruct (r_asy s k) as [|e r] eqn:SY.
      + inversion I; subst; clear I. rewrite app_nil_r. cbn [app]. split.
        * eapply (common_change _ _ _ []); eauto; [intros j J; injection J as <-; auto|noitems].
        * destruct T as [(DD & outs & fut & SE & DM & PH)|(DD & T)]; [left|right; auto]. split; auto.
          exists outs, fut. split; auto. split; auto.
          destruct PH as [c K1 FJ FK X0 D0 IN SP FU|FJ IN HE TH FU]; [eapply PRun|eapply PAgain]; cnt; eauto.
      + destruct (receive o D _ k e) as [s1 is] eqn:R. inversion I; subst s' its ls; clear I. rewrite app_nil_r.
        set (s0 := RS _ _ _ _ _ _ _ _ _) in R.
        assert (CM0 : common s0 (IAsync k :: l) tr).
        { destruct CM as [A B C F G H0]. split; auto; cbn.
          - intros j J. unfold upd. destruct (j =? k) eqn:Q; [apply Nat.eqb_eq in Q; lia|]. apply C. lia.
          - intros j J. unfold upd in J. destruct (j =? k) eqn:Q; [apply Nat.eqb_eq in Q; subst; now left|]. apply F. auto.
          - intros j J. unfold upd. destruct (j =? k) eqn:Q; auto. apply Nat.eqb_eq in Q. subst. rewrite (H0 k J) in SY. discriminate. }
        split; [eapply common_receive; eauto|].
        destruct T as [(DD & outs & fut & SE & DM & PH)|(DD & T)].
        2:{ rewrite receive_dead in R by auto. injection R as <- <-. right. split; auto. }
        destruct PH as [c K1 FJ FK X0 D0 IN SP FU|FJ IN HE TH FU].
        * destruct (Nat.eq_dec k c) as [->|NE].
          -- eapply (tail_receive s0 c e s1 is (IAsync c) l outs); cbn; eauto.
             unfold upd. rewrite Nat.eqb_refl. destruct SP as [(SP & _)|(_ & _ & SP)]; [congruence|].
             rewrite SE, FU, SP, SY. reflexivity.
          -- rewrite receive_fin in R by (cbn; apply FJ; lia). injection R as <- <-. left. split; auto.
             exists outs, fut. split; auto. split; auto. eapply (PRun _ _ _ c); cbn; eauto.
             unfold upd. destruct (c =? k) eqn:Q; auto. apply Nat.eqb_eq in Q. congruence.
        * rewrite receive_fin in R by (cbn; apply FJ; lia). injection R as <- <-. left. split; auto.
          exists outs, fut. split; auto. split; auto. apply PAgain; cbn; auto.
    - (* IClear *)
      inversion I; subst; clear I. rewrite app_nil_r. split.
      + eapply (common_change _ _ _ [IXchg k]); eauto; [discriminate|noitems].
      + destruct T as [(DD & outs & fut & SE & DM & PH)|(DD & T)]; [left|right; auto]. split; auto.
        exists outs, fut. split; auto. split; auto.
        destruct PH as [c K1 FJ FK X0 D0 IN SP FU|FJ IN HE TH FU]; [cnt; lia|].
        apply PAgain; cbn [r_d r_fin r_x r_in r_k r_spawned r_syn r_asy r_held app]; auto; cnt; auto.
    - (* IXchg *)
      inversion I; subst; clear I. rewrite app_nil_r. split.
      + eapply common_change; eauto; [discriminate|destruct (r_in s); noitems].
      + destruct T as [(DD & outs & fut & SE & DM & PH)|(DD & T)]; [left|right; auto]. split; auto.
        exists outs, fut. split; auto. split; auto.
        destruct PH as [c K1 FJ FK X0 D0 IN SP FU|FJ IN HE TH FU]; [cnt; lia|].
        apply PAgain; cbn [r_d r_fin r_x r_in r_k r_spawned r_syn r_asy r_held app]; auto.
        * right. split; auto. destruct IN as [(-> & IN)|(-> & IN)]; cnt; lia.
        * destruct (r_in s); cnt; auto.
        * intros c E1 T1. specialize (TH c E1 T1). destruct (r_in s); cnt; lia.
    - (* IKill *)
      inversion I; subst; clear I. rewrite app_nil_r. cbn [app]. split.
      + eapply (common_change _ _ _ []); eauto; [discriminate|noitems].
      + assert (KN : kills <> 0) by (intro K0; pose proof (cm_kill _ _ _ CM K0); cnt; lia).
        right. cbn [set r_d]. split; [apply (law_kill D LD)|].
        destruct T as [(DD & outs & fut & SE & DM & PH)|(DD & outs & fut & SE & T)]; exists outs, fut; split; auto.
        * right. split; auto. now rewrite DM.
        * rewrite (law_kill_dead D LD) by auto. auto.
  Qed.

  Lemma Inv_init : mdisp D d0 = false -> Inv (r_init o D script x0 d0) (concat (r_threads script kills)) [].
  Proof.
    intro DD. unfold r_threads. cbn [concat app].
    assert (NI : forall i, In i (concat (map (fun k => [IAsync k]) (seq 0 (length script)) ++ repeat [IKill] kills)) ->
                 (exists k, i = IAsync k) \/ i = IKill /\ kills <> 0).
    { intros i I. apply in_concat in I as (t & T & I). apply in_app_iff in T as [T|T].
      - apply in_map_iff in T as (k & <- & _). destruct I as [<-|[]]. eauto.
      - assert (kills <> 0) by (destruct kills; [destruct T|lia]). apply repeat_spec in T. subst. destruct I as [<-|[]]. auto. }
    assert (CZ : forall f, (forall k, f (IAsync k) = false) -> f IKill = false ->
      count f (concat (map (fun k => [IAsync k]) (seq 0 (length script)) ++ repeat [IKill] kills)) = 0).
    { intros f F1 F2. apply count_zero_of. intros i I. destruct (NI i I) as [(k & ->)|(-> & _)]; auto. }
    split.
    - split; cbn [r_init r_d r_fin r_x r_in r_k r_spawned r_syn r_asy r_held].
      + intros k [[I|I]|[I|I]]; try discriminate; destruct (NI _ I) as [(j & Q)|(Q & _)]; discriminate.
      + left. rewrite count_cons, CZ by reflexivity. auto.
      + auto.
      + intros k Hk. right. apply in_concat. exists [IAsync k]. split; [|now left]. apply in_app_iff. left. apply in_map_iff. exists k. split; auto.
        apply in_seq. cbn. split; [lia|]. destruct (le_lt_dec (length script) k); auto. unfold ResubModel.att in Hk. rewrite nth_overflow in Hk by auto. now destruct Hk.
      + intro K0. apply count_zero_of. intros i [<-|I]; auto. destruct (NI i I) as [(k & ->)|(-> & N)]; auto. contradiction.
      + intros k T. unfold is_throw, att in T. destruct (ResubModel.att script k); [destruct T|reflexivity].
    - left. cbn [r_init r_d]. split; auto. exists [], spec. split; auto. split; auto.
      apply PAgain; cbn [r_init r_d r_fin r_x r_in r_k r_spawned r_syn r_asy r_held]; auto; try lia; try discriminate.
      right. rewrite !count_cons, !CZ by reflexivity. auto.
  Qed.

  (** IAsync comes last in its thread. *)
  Definition last_async (t : list ritem) : Prop := forall a k b, t = a ++ IAsync k :: b -> b = [].
  Lemma last_async_inv : forall c tr c', gexec (rstep o D script) c tr c' -> Forall last_async (snd c) -> Forall last_async (snd c').
  Proof.
    intros c tr c' X. apply (gexec_tinv _ (fun _ ts _ => Forall last_async ts)) with (2 := X).
    intros s ts1 it rest ts2 _ s' its ls F I. apply Forall_app in F as [F1 F2]. inversion F2 as [|y z F3 F4]; subst.
    apply Forall_app. split; auto. constructor; auto.
    assert (R : last_async rest) by (intros a k b ->; apply (F3 (it :: a) k b); reflexivity).
    assert (N : (forall k, it <> IAsync k) \/ rest = []).
    { destruct it; try (left; discriminate). right. now apply (F3 [] k rest). }
    assert (ITS : (forall k, ~ In (IAsync k) its) \/ rest = [] /\ (exists is k, its = is ++ [IAsync k] /\ forall j, ~ In (IAsync j) is)).
    { assert (RC : forall s k e s1 is, receive o D s k e = (s1, is) -> forall j, ~ In (IAsync j) is).
      { intros s2 k e s1 is RR j Hj. unfold receive in RR. destruct (r_fin s2 k || mdisp D (r_d s2)); [inversion RR; subst; destruct Hj|].
        destruct (ron o (r_x s2) e) as [x [v|t| |]]; inversion RR; subst; cbn in Hj; intuition discriminate. }
      destruct it; cbn [rstep] in I.
      - destruct (mdisp D (r_d s)); [inversion I; subst; left; intros k []|].
        destruct (rpre o (r_x s)) as [x [t|]]; inversion I; subst; left; intros k J; [destruct J|destruct J as [J|[]]; discriminate].
      - left. destruct (r_syn s k) as [|e r]; [inversion I; subst; intros j [J|[]]; discriminate|].
        destruct (receive o D _ k e) as [s1 is] eqn:RR. inversion I; subst. intros j J. apply in_app_iff in J as [J|[J|[]]]; [|discriminate].
        eapply RC; eauto.
      - left. destruct (ResubModel.att script k); inversion I; subst; intros j J; [destruct (r_in s); cbn in J; intuition discriminate|destruct J].
      - destruct (r_spawned s k); [|discriminate]. destruct (r_asy s k) as [|e r]; [inversion I; subst; left; intros j []|].
        destruct (receive o D _ k e) as [s1 is] eqn:RR. inversion I; subst. right. destruct N as [N|N]; [now destruct (N k)|]. split; auto.
        exists is, k. split; auto. eapply RC; eauto.
      - left. inversion I; subst. intros j [J|[]]; discriminate.
      - left. inversion I; subst. intros j J. destruct (r_in s); cbn in J; intuition discriminate.
      - left. inversion I; subst. intros j []. }
    destruct ITS as [NI|(-> & is & k & -> & NI)].
    - clear - NI R. induction its as [|i its IH]; cbn [app]; auto.
      assert (last_async (its ++ rest)) by (apply IH; intros k J; apply (NI k); now right).
      intros [|a0 a] k b Q; cbn in Q; inversion Q; subst; [destruct (NI k); now left|eauto].
    - rewrite app_nil_r. intros a j b Q. destruct b as [|y b]; auto. exfalso.
      destruct (exists_last (l := y :: b)) as (b' & z & Z); [discriminate|]. rewrite Z in Q.
      change (a ++ IAsync j :: b' ++ [z]) with (a ++ (IAsync j :: b') ++ [z]) in Q. rewrite app_assoc in Q. apply app_inj_tail in Q as [Q _].
      apply (NI j). rewrite Q. apply in_app_iff. right. now left.
  Qed.

  Theorem resub_main : forall tr s ts, mdisp D d0 = false ->
    gexec (rstep o D script) (r_init o D script x0 d0, r_threads script kills) tr (s, ts) ->
    one_by_one tr /\
    (exists outs fut, spec = outs ++ fut /\ (r_d s = mrun D d0 outs \/ kills <> 0 /\ r_d s = mkill D (mrun D d0 outs))) /\
    ((forall ls c', ~ gstep (rstep o D script) (s, ts) ls c') ->
     r_d s = mrun D d0 spec \/ kills <> 0 /\ exists outs fut, spec = outs ++ fut /\ r_d s = mkill D (mrun D d0 outs)).
  Proof.
    intros tr s ts DD X.
    assert (I : Inv s (concat ts) tr).
    { apply (gexec_inv _ Inv Inv_perm Inv_step _ _ _ X). now apply Inv_init. }
    assert (LA : Forall last_async ts).
    { apply (last_async_inv _ _ _ X). cbn [snd]. unfold r_threads. constructor.
      - intros [|a0 [|a1 a]] k b Q; discriminate.
      - apply Forall_forall. intros t T. apply in_app_iff in T as [T|T].
        + apply in_map_iff in T as (k & <- & _). intros [|a0 [|a1 a]] j b Q; inversion Q. reflexivity.
        + apply repeat_spec in T. subst. intros [|a0 [|a1 a]] j b Q; discriminate. }
    destruct I as (CM & T). split.
    - destruct (cm_tr _ _ _ CM) as [(_ & ->)|(c & _ & _ & ->)]; [exists (r_k s)|exists c]; auto.
    - split.
      + destruct T as [(_ & outs & fut & SE & DM & _)|(_ & outs & fut & SE & T)]; exists outs, fut; auto.
      + intro ST. destruct T as [(LV & outs & fut & SE & DM & PH)|(DE & outs & fut & SE & [T|T])].
        * left. assert (AL : forall i, In i (concat ts) -> exists k, i = IAsync k /\ r_spawned s k = false).
          { intros i Hi. apply in_concat in Hi as (t & Ht & Hi). rewrite Forall_forall in LA. specialize (LA t Ht).
            destruct t as [|h t]; [destruct Hi|]. apply in_split in Ht as (t1 & t2 & Ht).
            destruct (rstep o D script s h) as [[[s1 its] ls]|] eqn:RS.
            { exfalso. apply (ST ls (s1, t1 ++ (its ++ t) :: t2)). rewrite Ht. now constructor. }
            assert (Q : exists k, h = IAsync k /\ r_spawned s k = false).
            { destruct h; cbn [rstep] in RS; try discriminate.
              - destruct (mdisp D (r_d s)); [discriminate|]. destruct (rpre o (r_x s)) as [x [t0|]]; discriminate.
              - destruct (r_syn s k); [discriminate|]. destruct (receive o D _ k e); discriminate.
              - destruct (ResubModel.att script k); discriminate.
              - exists k. split; auto. destruct (r_spawned s k); auto. destruct (r_asy s k); [discriminate|]. destruct (receive o D _ k e); discriminate. }
            destruct Q as (k & -> & Q). rewrite (LA [] k t eq_refl) in Hi. destruct Hi as [<-|[]]. eauto. }
          assert (CZ : forall f, (forall k, f (IAsync k) = false) -> count f (concat ts) = 0).
          { intros f F1. apply count_zero_of. intros i Hi. destruct (AL i Hi) as (k & -> & _). auto. }
          destruct PH as [c K1 FJ FK X0 D0 IN SP FU|FJ IN HE TH FU].
          -- rewrite CZ in IN by reflexivity. rewrite CZ in SP by reflexivity.
             destruct IN as [(_ & IN)|(_ & _ & IN)]; [lia|]. destruct SP as [(_ & SP)|(SP & _ & SY)]; [lia|].
             assert (AS : r_asy s c = []).
             { destruct (r_asy s c) eqn:Q; auto. assert (In (IAsync c) (concat ts)) by (apply (cm_asy _ _ _ CM); congruence).
               destruct (AL _ H) as (k & Q1 & Q2). injection Q1 as <-. congruence. }
             unfold is_throw in IN. unfold run_future in FU. rewrite SY, AS in FU. destruct (att c); [|destruct IN; auto].
             cbn in FU. subst fut. rewrite SE, app_nil_r. auto.
          -- rewrite !CZ in IN by reflexivity. lia.
        * left. rewrite SE, mrun_app, <- T, mrun_dead; auto.
        * right. destruct T as (T1 & T2). split; auto. eauto.
  Qed.
End Proofs.
