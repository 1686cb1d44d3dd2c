(** Linearizability of the composite disposable: forward simulation. *)
From Coq Require Import Permutation.
From Verif Require Import Base CompositeSpec CompositeModel.

Definition id_of (it : item) : list nat :=
  match it with
  | IOp _ => []
  | IAddChk k _ | IAddCas k _ | IAddPush k _ | IAddUnlock k _ _ | IAddLate k _ | IAddRet k _
  | IRemCas k _ | IRemDo k _ | IRemUnlock k _
  | IClrCas k | IClrLoop k _ | IClrClear k | IClrUnlock k
  | IDspCas k | IDspLoop k _ | IDspClear k => [k]
  end.
Definition ids (l : list item) : list nat := flat_map id_of l.

(** Holders of the Edit state. *)
Definition crit (it : item) : bool :=
  match it with
  | IAddPush _ _ | IAddUnlock _ _ _ | IRemDo _ _ | IRemUnlock _ _
  | IClrLoop _ _ | IClrClear _ | IClrUnlock _ => true
  | _ => false
  end.
(** The thread executing the one effective dispose. *)
Definition dsp (it : item) : bool :=
  match it with IDspLoop _ _ | IDspClear _ => true | _ => false end.
(** Points where the abstract children are already taken away. *)
Definition sens (it : item) : bool :=
  match it with IClrLoop _ _ | IClrClear _ | IDspLoop _ _ | IDspClear _ => true | _ => false end.

Definition cnt (f : item -> bool) (l : list item) : nat := length (filter f l).
Arguments cnt : simpl never.

Lemma cnt_cons : forall f x l, cnt f (x :: l) = (if f x then 1 else 0) + cnt f l.
Proof. intros. unfold cnt. cbn. now destruct (f x). Qed.
Lemma cnt_nil : forall f, cnt f [] = 0.
Proof. reflexivity. Qed.
Lemma cnt_app : forall f x l, cnt f (x ++ l) = cnt f x + cnt f l.
Proof. intros. unfold cnt. now rewrite filter_app, app_length. Qed.
Lemma cnt_perm : forall f l l', Permutation l l' -> cnt f l = cnt f l'.
Proof. induction 1; rewrite ?cnt_cons in *; lia. Qed.
Lemma cnt_ops : forall f l, (forall o, f (IOp o) = false) -> cnt f (map IOp l) = 0.
Proof. intros f l H. induction l; cbn; auto. rewrite cnt_cons, H. auto. Qed.
Lemma cnt_zero : forall f l, cnt f l = 0 -> forall x, In x l -> f x = false.
Proof.
  induction l as [|y l IH]; intros H x I; [destruct I|].
  rewrite cnt_cons in H. destruct I as [->|I].
  - destruct (f x); auto; lia.
  - apply IH; auto. destruct (f y); lia.
Qed.
Lemma cnt_zero_of : forall f l, (forall x, In x l -> f x = false) -> cnt f l = 0.
Proof.
  induction l as [|y l IH]; intro H; auto. rewrite cnt_cons.
  rewrite (H y (or_introl eq_refl)), IH; auto. intros; apply H; now right.
Qed.

Section Inv.
  Variable cap : option nat.

  Definition pre (a : astate) (tr : list aev) (k : nat) (o : op) : Prop :=
    filter (of_call k) tr = [AVis (LInv k o)] /\ forall d, ~ In (k, d) (a_owed a).
  Definition post (tr : list aev) (k : nat) (o : op) (ok : bool) : Prop :=
    filter (of_call k) tr = [AVis (LInv k o); ALin k o ok].
  Definition paid (a : astate) (k : nat) : Prop :=
    forall d, In (k, d) (a_owed a) -> In d (a_gone a).

  Definition loop_ok (s : shared) (a : astate) (k i : nat) : Prop :=
    a_kids a = [] /\ (forall d, In (k, d) (a_owed a) <-> In d (sh_kids s)) /\
    (forall j d, j < i -> nth_error (sh_kids s) j = Some d -> In d (a_gone a)).

  Definition item_ok (s : shared) (a : astate) (tr : list aev) (it : item) : Prop :=
    match it with
    | IOp _ => True
    | IAddChk k d => pre a tr k (OAdd d)
    | IAddCas k d | IAddPush k d => pre a tr k (OAdd d) /\ d <> self
    | IAddUnlock k d ok => post tr k (OAdd d) ok /\ paid a k
    | IAddLate k d => post tr k (OAdd d) true /\ (forall d', In (k, d') (a_owed a) <-> d' = d)
    | IAddRet k d => post tr k (OAdd d) true /\ paid a k
    | IRemCas k d | IRemDo k d => pre a tr k (ORemove d)
    | IRemUnlock k d => post tr k (ORemove d) true /\ paid a k
    | IClrCas k => pre a tr k OClear
    | IClrLoop k i => post tr k OClear true /\ loop_ok s a k i
    | IClrClear k => post tr k OClear true /\ a_kids a = [] /\ paid a k
    | IClrUnlock k => post tr k OClear true /\ paid a k
    | IDspCas k => pre a tr k ODispose
    | IDspLoop k i => post tr k ODispose true /\ loop_ok s a k i
    | IDspClear k => post tr k ODispose true /\ a_kids a = [] /\ paid a k
    end.

  Definition complete (a : astate) (tr : list aev) (k : nat) : Prop :=
    (exists o ok, filter (of_call k) tr = [AVis (LInv k o); ALin k o ok; AVis (LRet k o ok)]) /\ paid a k.

  Definition want_crit (s : shared) := match sh_st s with CEdit => 1 | _ => 0 end.
  Definition want_dsp (s : shared) := match sh_st s with CDisposed => 1 | _ => 0 end.

  Record Inv (s : shared) (l : list item) (tr : list aev) (a : astate) : Prop := mkInv {
    i_gone : a_gone a = sh_gone s;
    i_dead : a_dead a = match sh_st s with CDisposed => true | _ => false end;
    i_crit : cnt crit l = want_crit s;
    i_dsp : cnt dsp l <= want_dsp s;
    i_kids : cnt sens l = 0 -> a_kids a = sh_kids s;
    i_items : forall it, In it l -> item_ok s a tr it;
    i_ids : NoDup (ids l);
    i_lt : forall k, In k (ids l) -> k < sh_next s;
    i_fresh : forall k, sh_next s <= k -> filter (of_call k) tr = [] /\ forall d, ~ In (k, d) (a_owed a);
    i_done : forall k, k < sh_next s -> ~ In k (ids l) -> complete a tr k;
    i_nd : NoDup (sh_gone s)
  }.

  Lemma ids_perm : forall l l', Permutation l l' -> Permutation (ids l) (ids l').
  Proof. intros. now apply Permutation_flat_map. Qed.

  Lemma Inv_perm : forall s l l' tr a, Permutation l l' -> Inv s l tr a -> Inv s l' tr a.
  Proof.
    intros s l l' tr a P [G D C DS K I N L F DN ND].
    pose proof (ids_perm _ _ P) as PI.
    constructor; auto.
    - now rewrite <- (cnt_perm crit _ _ P).
    - now rewrite <- (cnt_perm dsp _ _ P).
    - now rewrite <- (cnt_perm sens _ _ P).
    - intros it H. apply I. eapply Permutation_in; [symmetry|]; eauto.
    - eapply Permutation_NoDup; eauto.
    - intros k H. apply L. eapply Permutation_in; [symmetry|]; eauto.
    - intros k H1 H2. apply DN; auto. intro X. apply H2. eapply Permutation_in; eauto.
  Qed.

  Lemma ids_ops : forall l, ids (map IOp l) = [].
  Proof. induction l; cbn; auto. Qed.

  Lemma Inv_ops : forall s l o tr a, Inv s l tr a -> Inv s (map IOp o ++ l) tr a.
  Proof.
    intros s l o tr a [G D C DS K I N L F DN ND].
    assert (E: ids (map IOp o ++ l) = ids l).
    { unfold ids. rewrite flat_map_app. change (flat_map id_of (map IOp o)) with (ids (map IOp o)).
      now rewrite ids_ops. }
    constructor; auto; rewrite ?cnt_app, ?cnt_ops, ?E; auto.
    intros it H. apply in_app_or in H as [H|H]; auto.
    apply in_map_iff in H as (x & <- & _). exact Coq.Init.Logic.I.
  Qed.

  Lemma Inv_drop_op : forall s l o tr a, Inv s (IOp o :: l) tr a -> Inv s l tr a.
  Proof.
    intros s l o tr a [G D C DS K I N L F DN ND]. cbn in N, L, DN.
    rewrite cnt_cons in C, DS, K. cbn in C, DS, K.
    constructor; auto. intros it H. apply I. now right.
  Qed.

  (** Items other than the acting one keep their invariant. *)
  Lemma others_ok : forall s l tr a s' tr' a' k,
    (forall it, In it l -> item_ok s a tr it) -> ~ In k (ids l) ->
    (forall j, j <> k -> filter (of_call j) tr' = filter (of_call j) tr) ->
    (forall j d, j <> k -> (In (j, d) (a_owed a') <-> In (j, d) (a_owed a))) ->
    incl (a_gone a) (a_gone a') ->
    (cnt sens l = 0 \/ (a_kids a' = a_kids a /\ sh_kids s' = sh_kids s)) ->
    forall it, In it l -> item_ok s' a' tr' it.
  Proof.
    intros s l tr a s' tr' a' k I NK T O G S it H.
    assert (KI: forall j, In j (id_of it) -> j <> k).
    { intros j Hj ->. apply NK. apply in_flat_map. eauto. }
    pose proof (I _ H) as X.
    assert (SE: sens it = true -> a_kids a' = a_kids a /\ sh_kids s' = sh_kids s).
    { destruct S as [S|S]; auto. intro Y. rewrite (cnt_zero _ _ S it H) in Y. discriminate. }
    assert (PR: forall j o, j <> k -> pre a tr j o -> pre a' tr' j o).
    { intros j o J [P1 P2]. split; [rewrite T; auto|]. intros d Hd. apply (P2 d). apply O; auto. }
    assert (PA: forall j, j <> k -> paid a j -> paid a' j).
    { intros j J P d Hd. apply G, P, O; auto. }
    assert (PO: forall j o ok, j <> k -> post tr j o ok -> post tr' j o ok).
    { intros j o ok J P. unfold post. rewrite T; auto. }
    destruct it; cbn [item_ok id_of sens] in *; auto;
      try (assert (J: k0 <> k) by (apply KI; now left)).
    all: try (apply PR; auto; fail).
    all: try (destruct X as [X1 X2]; split; [apply PR || apply PO|]; auto; fail).
    - destruct X as [X1 X2]. split; [apply PO; auto|]. intro d'. rewrite O; auto.
    - destruct X as [X1 (E1 & E2 & E3)]. split; [apply PO; auto|].
      destruct (SE eq_refl) as [K1 K2]. repeat split; try rewrite K2; try congruence.
      + intro Y. rewrite O in Y; auto. now apply E2.
      + intro Y. rewrite O; auto. now apply E2.
      + intros j d Hj Hn. apply G. eauto.
    - destruct X as (X1 & X2 & X3). destruct (SE eq_refl) as [K1 K2].
      split; [apply PO; auto|]. split; [congruence|auto].
    - destruct X as [X1 (E1 & E2 & E3)]. split; [apply PO; auto|].
      destruct (SE eq_refl) as [K1 K2]. repeat split; try rewrite K2; try congruence.
      + intro Y. rewrite O in Y; auto. now apply E2.
      + intro Y. rewrite O; auto. now apply E2.
      + intros j d Hj Hn. apply G. eauto.
    - destruct X as (X1 & X2 & X3). destruct (SE eq_refl) as [K1 K2].
      split; [apply PO; auto|]. split; [congruence|auto].
  Qed.

  (** One step of call k, which occupies item [it] and continues with [its]. *)
  Lemma inv_step : forall s it l tr a s' its tr' a' k,
    Inv s (it :: l) tr a -> id_of it = [k] ->
    (its = [] \/ exists it', its = [it'] /\ id_of it' = [k]) ->
    sh_next s' = sh_next s ->
    a_gone a' = sh_gone s' ->
    a_dead a' = match sh_st s' with CDisposed => true | _ => false end ->
    cnt crit (its ++ l) = want_crit s' ->
    cnt dsp (its ++ l) <= want_dsp s' ->
    (cnt sens (its ++ l) = 0 -> a_kids a' = sh_kids s') ->
    (forall j, j <> k -> filter (of_call j) tr' = filter (of_call j) tr) ->
    (forall j d, j <> k -> (In (j, d) (a_owed a') <-> In (j, d) (a_owed a))) ->
    incl (a_gone a) (a_gone a') ->
    (cnt sens l = 0 \/ (a_kids a' = a_kids a /\ sh_kids s' = sh_kids s)) ->
    (forall it', In it' its -> item_ok s' a' tr' it') ->
    (its = [] -> complete a' tr' k) ->
    NoDup (sh_gone s') ->
    Inv s' (its ++ l) tr' a'.
  Proof.
    intros s it l tr a s' its tr' a' k V KI IT NX G D C DS K T O GI S IK CK ND.
    destruct V as [G0 D0 C0 DS0 K0 I0 N0 L0 F0 DN0 ND0].
    assert (EI: ids (it :: l) = k :: ids l) by (cbn; now rewrite KI).
    rewrite EI in N0, L0, DN0.
    assert (NK: ~ In k (ids l)) by now inversion N0.
    assert (KL: k < sh_next s) by (apply L0; now left).
    assert (EO: ids (its ++ l) = (if its then [] else [k]) ++ ids l).
    { destruct IT as [->|(it' & -> & E)]; cbn; auto. now rewrite E. }
    constructor; auto.
    - intros x Hx. apply in_app_or in Hx as [Hx|Hx]; auto.
      eapply others_ok with (s := s) (a := a) (tr := tr) (l := l) (k := k); eauto.
      intros y Hy. apply I0. now right.
    - rewrite EO. destruct its; cbn; auto. now inversion N0.
    - rewrite EO, NX. intros j Hj. apply L0. destruct its; cbn in *; auto; tauto.
    - rewrite NX. intros j Hj. destruct (F0 j Hj) as [F1 F2].
      assert (j <> k) by lia. split; [rewrite T; auto|].
      intros d Hd. apply (F2 d). apply O; auto.
    - rewrite NX, EO. intros j Hj Hn.
      destruct (Nat.eq_dec j k) as [->|NE].
      + destruct its; cbn in Hn; auto. tauto.
      + destruct (DN0 j Hj) as [(o & ok & E) P].
        { intros [X|X]; [congruence|]. apply Hn. apply in_or_app. now right. }
        split.
        * exists o, ok. rewrite T; auto.
        * intros d Hd. apply GI, P, O; auto.
  Qed.

  (** Filters of extended traces. *)
  Lemma fil_self : forall k tr l, filter (of_call k) (tr ++ l) = filter (of_call k) tr ++ filter (of_call k) l.
  Proof. intros; apply filter_app. Qed.
End Inv.

Ltac fother :=
  intros; rewrite fil_self; cbn [filter of_call];
  repeat match goal with
  | H : ?j <> ?k |- context [?k =? ?j] => rewrite (proj2 (Nat.eqb_neq k j)) by congruence
  end; apply app_nil_r.
Ltac fself := rewrite fil_self; cbn [filter of_call]; rewrite ?Nat.eqb_refl.

Lemma memb_In : forall d l, memb d l = true <-> In d l.
Proof.
  intros. unfold memb. rewrite existsb_exists. split.
  - intros (x & I & E). apply Nat.eqb_eq in E. now subst.
  - intro I. exists d. split; auto. apply Nat.eqb_refl.
Qed.
Lemma memb_nIn : forall d l, memb d l = false <-> ~ In d l.
Proof. intros. rewrite <- memb_In. destruct (memb d l); intuition congruence. Qed.

Lemma pair_in : forall (k j d : nat) (l : list nat), In (j, d) (map (pair k) l) <-> j = k /\ In d l.
Proof.
  intros. rewrite in_map_iff. split.
  - intros (x & E & I). inversion E; subst; auto.
  - intros [-> I]. eauto.
Qed.

(** A batch of annotated events. *)
Inductive spec_many (cap : option nat) : astate -> list aev -> astate -> Prop :=
| SMNil : forall a, spec_many cap a [] a
| SMCons : forall e r a b c, spec_step cap e a b -> spec_many cap b r c -> spec_many cap a (e :: r) c.

Lemma spec_run_many : forall cap a tr b es c,
  spec_run cap a tr b -> spec_many cap b es c -> spec_run cap a (tr ++ es) c.
Proof.
  intros cap a tr b es c R M. revert tr R. induction M; intros tr R.
  - now rewrite app_nil_r.
  - replace (tr ++ e :: r) with ((tr ++ [e]) ++ r) by (rewrite <- app_assoc; reflexivity).
    apply IHM. econstructor; eauto.
Qed.

Lemma sens_le : forall l, cnt sens l <= cnt crit l + cnt dsp l.
Proof.
  induction l as [|x l IH]; auto. rewrite !cnt_cons. destruct x; cbn; lia.
Qed.

Section Sim.
  Variable acts : nat -> list op.
  Variable cap : option nat.

  Ltac cn := rewrite ?cnt_app, ?cnt_cons, ?cnt_nil in *; cbn [crit dsp sens app] in *;
             unfold want_crit, want_dsp in *; cbn [sh_st sh_kids sh_gone sh_next set_st set_kids] in *.
  Ltac fin := auto; try reflexivity; try congruence; try lia; try (apply incl_refl); try tauto;
             try (intros ? Hfalse; destruct Hfalse; fail); try (intros _; cbn; congruence).

  Ltac norm :=
    match goal with
    | |- Inv _ ([] ++ _) _ _ => idtac
    | |- Inv _ ([_] ++ _) _ _ => idtac
    | |- Inv _ (?x :: ?l) _ _ => change (x :: l) with ([x] ++ l)
    | |- Inv ?s ?l ?t ?a => change (Inv s ([] ++ l) t a)
    end.

  Lemma sim_kill : forall s a tr l d s' its fresh k,
    kill acts s d = (s', its, fresh) ->
    a_gone a = sh_gone s ->
    In (k, d) (a_owed a) ->
    (forall a' es, spec_many cap a es a' -> erase es = (if fresh then [LKill k d] else []) ->
       (forall j, filter (of_call j) es = []) ->
       a_kids a' = a_kids a -> a_dead a' = a_dead a -> a_owed a' = a_owed a ->
       a_gone a' = sh_gone s' -> incl (a_gone a) (a_gone a') -> In d (a_gone a') ->
       sh_st s' = sh_st s -> sh_kids s' = sh_kids s -> sh_next s' = sh_next s ->
       (NoDup (sh_gone s) -> NoDup (sh_gone s')) ->
       Inv s' l (tr ++ es) a') ->
    exists es a', erase es = (if fresh then [LKill k d] else []) /\
      spec_many cap a es a' /\ Inv s' (its ++ l) (tr ++ es) a'.
  Proof.
    intros s a tr l d s' its fresh k E G O H. unfold kill in E.
    destruct (memb d (sh_gone s)) eqn:M; inversion E; subst; clear E.
    - exists [], a. apply memb_In in M. split; [reflexivity|]. split; [constructor|].
      cbn [app]. apply H; auto; try constructor; try apply incl_refl. now rewrite G.
    - apply memb_nIn in M.
      exists [AVis (LKill k d)], (AState (a_kids a) (a_dead a) (a_owed a) (d :: a_gone a)).
      assert (SM: spec_many cap a [AVis (LKill k d)] (AState (a_kids a) (a_dead a) (a_owed a) (d :: a_gone a))).
      { econstructor; [|constructor]. constructor; auto. now rewrite G. }
      split; [reflexivity|]. split; [exact SM|]. apply Inv_ops. apply H; cbn; auto; try congruence.
      + intros x Hx. now right.
      + intro. now constructor.
  Qed.

  Lemma sim : forall s it l tr a s' its ls,
    Inv s (it :: l) tr a -> istep acts cap s it = (s', its, ls) ->
    exists es a', erase es = ls /\ spec_many cap a es a' /\ Inv s' (its ++ l) (tr ++ es) a'.
  Proof.
    intros s it l tr a s' its ls V E.
    pose proof (i_gone _ _ _ _ V) as G. pose proof (i_dead _ _ _ _ V) as D.
    pose proof (i_crit _ _ _ _ V) as C. pose proof (i_dsp _ _ _ _ V) as DS.
    pose proof (i_kids _ _ _ _ V) as K. pose proof (i_items _ _ _ _ V it (or_introl eq_refl)) as IT.
    pose proof (i_nd _ _ _ _ V) as ND. pose proof (sens_le l) as SL.
    destruct it as [o|k d|k d|k d|k d ok|k d|k d|k d|k d|k d|k|k i|k|k|k|k i|k]; cbn [istep item_ok] in *.
    - (* IOp *)
      destruct o as [d|d| | |d].
      5:{ unfold kill in E. destruct (memb d (sh_gone s)) eqn:M; inversion E; subst; clear E.
          - exists [], a. split; [reflexivity|]. split; [constructor|]. rewrite app_nil_r. eapply Inv_drop_op; eauto.
          - apply memb_nIn in M.
            exists [AVis (LUserKill d)], (AState (a_kids a) (a_dead a) (a_owed a) (d :: a_gone a)).
            split; [reflexivity|]. split.
            { econstructor; [|constructor]. constructor. now rewrite G. }
            apply Inv_ops. apply Inv_drop_op in V. destruct V as [i_gone0 i_dead0 i_crit0 i_dsp0 i_kids0 i_items0 i_ids0 i_lt0 i_fresh0 i_done0 i_nd0].
            constructor; cbn [a_gone a_kids a_dead a_owed sh_gone sh_kids sh_st sh_next]; auto; try congruence.
            + intros it Hit. apply others_ok with (s := s) (a := a) (tr := tr) (l := l) (k := sh_next s); auto; cbn; try tauto.
              * intro X. apply i_lt0 in X. lia.
              * intros. rewrite fil_self. cbn. apply app_nil_r.
              * intros x Hx. now right.
            + intros k Hk. rewrite fil_self. cbn. rewrite app_nil_r. auto.
            + intros k Hk Hn. destruct (i_done0 k Hk Hn) as [(o & ok & X) P]. split.
              * exists o, ok. rewrite fil_self. cbn. now rewrite app_nil_r.
              * intros x Hx. right. now apply P.
            + now constructor. }
      all: inversion E; subst; clear E; cn;
        match goal with |- context [LInv ?k ?o] => exists [AVis (LInv k o)], a end;
        (split; [reflexivity|]); (split; [econstructor; [constructor|constructor]|]).
      all: destruct V as [G0 D0 C0 DS0 K0 I0 N0 L0 F0 DN0 ND0]; cbn [ids flat_map id_of app] in N0, L0, DN0;
        change (flat_map id_of l) with (ids l) in *; cn.
      all: destruct (F0 (sh_next s) (le_n _)) as [F1 F2].
      all: assert (NK: ~ In (sh_next s) (ids l)) by (intro X; apply L0 in X; lia).
      all: constructor; cn; auto.
      all: try (intros it [<-|Hit]; [cbn [item_ok]; split; auto; fself; rewrite F1; reflexivity |
                 apply others_ok with (s := s) (a := a) (tr := tr) (l := l) (k := sh_next s); [intros; apply I0; now right|auto|fother|tauto|apply incl_refl|auto|auto]]).
      all: try (cbn [ids flat_map id_of app]; constructor; auto; fail).
      all: try (cbn [ids flat_map id_of app]; intros j [<-|Hj]; [lia|apply L0 in Hj; lia]).
      all: try (intros j Hj; destruct (F0 j ltac:(lia)) as [X1 X2]; split; auto;
                assert (j <> sh_next s) by lia; etransitivity; [|exact X1]; fother).
      all: try (cbn [ids flat_map id_of app]; intros j Hj Hn; assert (j <> sh_next s) by (intro; subst; apply Hn; now left);
                destruct (DN0 j ltac:(lia)) as [(o & ok & X) P];
                [intro Y; apply Hn; now right | split; auto; exists o, ok; rewrite <- X; fother]).
      all: idtac.
    - (* IAddChk *)
      destruct IT as [P1 P2].
      destruct (memb d (sh_gone s) || (d =? self)) eqn:M; inversion E; subst; clear E.
      + exists [ALin k (OAdd d) true; AVis (LRet k (OAdd d) true)], a.
        split; [reflexivity|]. split.
        { econstructor; [constructor; constructor|econstructor; [constructor|constructor]].
          - apply orb_prop in M as [M|M]; [right|left].
            + rewrite G. now apply memb_In. + now apply Nat.eqb_eq.
          - intros x Hx. now apply P2 in Hx. }
        norm; eapply inv_step with (k := k) (1 := V); cn; fin.
        * fother.
        * intros _. split; [|intros x Hx; now apply P2 in Hx].
          exists (OAdd d), true. fself. rewrite P1. reflexivity.
      + exists [], a. split; [reflexivity|]. split; [constructor|].
        apply orb_false_elim in M as [_ M]. apply Nat.eqb_neq in M.
        rewrite app_nil_r.
        norm; eapply inv_step with (k := k) (1 := V); cn; fin.
        * right; eauto.
        * intros it' [<-|[]]. cbn. split; [split|]; auto.
    - (* IAddCas *)
      destruct IT as [[P1 P2] NS].
      destruct (sh_st s) eqn:ST; inversion E; subst; clear E.
      + exists [], a. split; [reflexivity|]. split; [constructor|]. rewrite app_nil_r.
        cn. rewrite ST in *. norm; eapply inv_step with (k := k) (1 := V); cn; fin.
        * right; eauto.
        * intros it' [<-|[]]. cbn. split; [split|]; auto.
      + exists [], a. split; [reflexivity|]. split; [constructor|]. rewrite app_nil_r. exact V.
      + exists [ALin k (OAdd d) true], (AState (a_kids a) true ((k, d) :: a_owed a) (a_gone a)).
        split; [reflexivity|]. split.
        { econstructor; [constructor; now apply SAddDead|constructor]. }
        cn. rewrite ST in *. norm; eapply inv_step with (k := k) (1 := V); cn; rewrite ?ST; fin.
        * right; eauto.
        * fother.
        * cbn. intros j d' NE. intuition congruence.
        * intros it' [<-|[]]. cbn. split.
          -- unfold post. fself. now rewrite P1.
          -- intro d'. split; [intros [X|X]; [congruence|now apply P2 in X] | intros ->; now left].
    - (* IAddPush *)
      destruct IT as [[P1 P2] NS].
      assert (ST: sh_st s = CEdit) by (cn; destruct (sh_st s); auto; lia).
      cn. rewrite ST in *.
      assert (S0: cnt sens l = 0) by lia.
      assert (AK: a_kids a = sh_kids s) by auto.
      destruct (room cap (sh_kids s)) eqn:R; inversion E; subst; clear E.
      + exists [ALin k (OAdd d) true], (AState (a_kids a ++ [d]) false (a_owed a) (a_gone a)).
        split; [reflexivity|]. split.
        { econstructor; [constructor; apply SAddOk; congruence|constructor]. }
        norm; eapply inv_step with (k := k) (1 := V); cn; rewrite ?ST; fin.
        * right; eauto.
        * fother.
        * intros it' [<-|[]]. cbn. split; [unfold post; fself; now rewrite P1|].
          intros x Hx. now apply P2 in Hx.
      + exists [ALin k (OAdd d) false], a.
        split; [reflexivity|]. split.
        { econstructor; [constructor; apply SAddFull; congruence|constructor]. }
        norm; eapply inv_step with (k := k) (1 := V); cn; rewrite ?ST; fin.
        * right; eauto.
        * fother.
        * intros it' [<-|[]]. cbn. split; [unfold post; fself; now rewrite P1|].
          intros x Hx. now apply P2 in Hx.
    - (* IAddUnlock *)
      destruct IT as [P1 P2]. unfold post in P1.
      assert (ST: sh_st s = CEdit) by (cn; destruct (sh_st s); auto; lia).
      cn. rewrite ST in *. inversion E; subst; clear E.
      exists [AVis (LRet k (OAdd d) ok)], a. split; [reflexivity|]. split.
      { econstructor; [constructor; exact P2|constructor]. }
      norm; eapply inv_step with (k := k) (1 := V); cn; fin.
      * fother.
      * intros _. split; auto. exists (OAdd d), ok. fself. now rewrite P1.
    - (* IAddLate *)
      destruct IT as [P1 P2]. unfold post in P1. cn.
      destruct (kill acts s d) as [[s1 i1] fr] eqn:KL. inversion E; subst; clear E.
      rewrite <- app_assoc.
      eapply sim_kill; eauto.
      { apply P2. reflexivity. }
      intros a' es SM ER FI E1 E2 E3 E4 E5 E6 E7 E8 E9 E10.
      norm; eapply inv_step with (k := k) (1 := V); cn; rewrite ?E7, ?E8, ?E1, ?E2, ?E3; fin.
      * right; eauto.
      * intros. rewrite fil_self, FI. apply app_nil_r.
      * intros it' [<-|[]]. cbn. split.
        -- unfold post. rewrite fil_self, FI, P1. reflexivity.
        -- intros x Hx. rewrite E3 in Hx. apply P2 in Hx. now subst.
    - (* IAddRet *)
      destruct IT as [P1 P2]. unfold post in P1. cn. inversion E; subst; clear E.
      exists [AVis (LRet k (OAdd d) true)], a. split; [reflexivity|]. split.
      { econstructor; [constructor; exact P2|constructor]. }
      norm; eapply inv_step with (k := k) (1 := V); cn; fin.
      * fother.
      * intros _. split; auto. exists (OAdd d), true. fself. now rewrite P1.
    - (* IRemCas *)
      destruct IT as [P1 P2].
      destruct (sh_st s) eqn:ST; inversion E; subst; clear E.
      + exists [], a. split; [reflexivity|]. split; [constructor|]. rewrite app_nil_r.
        cn. rewrite ST in *. norm; eapply inv_step with (k := k) (1 := V); cn; fin.
        * right; eauto.
        * intros it' [<-|[]]. cbn. split; auto.
      + exists [], a. split; [reflexivity|]. split; [constructor|]. rewrite app_nil_r. exact V.
      + exists [ALin k (ORemove d) true; AVis (LRet k (ORemove d) true)], a.
        split; [reflexivity|]. split.
        { econstructor; [constructor; now apply SRemoveDead|econstructor; [constructor|constructor]].
          intros x Hx. now apply P2 in Hx. }
        cn. rewrite ST in *. norm; eapply inv_step with (k := k) (1 := V); cn; rewrite ?ST; fin.
        * fother.
        * intros _. split; [|intros x Hx; now apply P2 in Hx].
          exists (ORemove d), true. fself. rewrite P1. reflexivity.
    - (* IRemDo *)
      destruct IT as [P1 P2].
      assert (ST: sh_st s = CEdit) by (cn; destruct (sh_st s); auto; lia).
      cn. rewrite ST in *.
      assert (S0: cnt sens l = 0) by lia.
      assert (AK: a_kids a = sh_kids s) by auto.
      inversion E; subst; clear E.
      exists [ALin k (ORemove d) true], (AState (filter (fun x => negb (x =? d)) (a_kids a)) false (a_owed a) (a_gone a)).
      split; [reflexivity|]. split.
      { econstructor; [constructor; apply SRemove; congruence|constructor]. }
      norm; eapply inv_step with (k := k) (1 := V); cn; rewrite ?ST; fin.
      * right; eauto.
      * fother.
      * intros it' [<-|[]]. cbn. split; [unfold post; fself; now rewrite P1|].
        intros x Hx. now apply P2 in Hx.
    - (* IRemUnlock *)
      destruct IT as [P1 P2]. unfold post in P1.
      assert (ST: sh_st s = CEdit) by (cn; destruct (sh_st s); auto; lia).
      cn. rewrite ST in *. inversion E; subst; clear E.
      exists [AVis (LRet k (ORemove d) true)], a. split; [reflexivity|]. split.
      { econstructor; [constructor; exact P2|constructor]. }
      norm; eapply inv_step with (k := k) (1 := V); cn; fin.
      * fother.
      * intros _. split; auto. exists (ORemove d), true. fself. now rewrite P1.
    - (* IClrCas *)
      destruct IT as [P1 P2].
      destruct (sh_st s) eqn:ST; inversion E; subst; clear E.
      + cn. rewrite ST in *. assert (S0: cnt sens l = 0) by lia.
        assert (AK: a_kids a = sh_kids s) by auto.
        exists [ALin k OClear true], (AState [] false (map (pair k) (a_kids a) ++ a_owed a) (a_gone a)).
        split; [reflexivity|]. split.
        { econstructor; [constructor; now apply SClear|constructor]. }
        norm; eapply inv_step with (k := k) (1 := V); cn; fin.
        * right; eauto.
        * fother.
        * cbn. intros j d' NE. rewrite in_app_iff, pair_in. intuition congruence.
        * intros it' [<-|[]]. cbn. split; [unfold post; fself; now rewrite P1|].
          repeat split; cbn; try lia.
          -- rewrite in_app_iff, pair_in. intros [[_ X]|X]; [now rewrite <- AK|now apply P2 in X].
          -- intro X. rewrite in_app_iff, pair_in. left. now rewrite AK.
      + exists [], a. split; [reflexivity|]. split; [constructor|]. rewrite app_nil_r. exact V.
      + exists [ALin k OClear true; AVis (LRet k OClear true)], a.
        split; [reflexivity|]. split.
        { econstructor; [constructor; now apply SClearDead|econstructor; [constructor|constructor]].
          intros x Hx. now apply P2 in Hx. }
        cn. rewrite ST in *. norm; eapply inv_step with (k := k) (1 := V); cn; rewrite ?ST; fin.
        * fother.
        * intros _. split; [|intros x Hx; now apply P2 in Hx].
          exists OClear, true. fself. rewrite P1. reflexivity.
    - (* IClrLoop *)
      destruct IT as [P1 (L1 & L2 & L3)]. unfold post in P1.
      assert (ST: sh_st s = CEdit) by (cn; destruct (sh_st s); auto; lia).
      destruct (nth_error (sh_kids s) i) as [d|] eqn:NE.
      + cn. destruct (kill acts s d) as [[s1 i1] fr] eqn:KL. inversion E; subst; clear E.
        rewrite <- app_assoc.
        eapply sim_kill; eauto.
        { apply L2. eapply nth_error_In; eauto. }
        intros a' es SM ER FI E1 E2 E3 E4 E5 E6 E7 E8 E9 E10.
        norm; eapply inv_step with (k := k) (1 := V); cn; rewrite ?E7, ?E8, ?E1, ?E2, ?E3; fin.
        * right; eauto.
        * intros. rewrite fil_self, FI. apply app_nil_r.
        * intros it' [<-|[]]. cbn. split.
          -- unfold post. rewrite fil_self, FI, P1. reflexivity.
          -- unfold loop_ok. rewrite E8, E3, E1. repeat split; auto; try apply L2.
             intros j x Hj Hn. destruct (Nat.eq_dec j i) as [->|]; [congruence|].
             apply E5. eapply L3; eauto. lia.
      + inversion E; subst; clear E. exists [], a. split; [reflexivity|]. split; [constructor|]. rewrite app_nil_r.
        cn. rewrite ST in *. norm; eapply inv_step with (k := k) (1 := V); cn; rewrite ?ST; fin.
        * right; eauto.
        * intros it' [<-|[]]. cbn. repeat split; auto. intros d Hd. apply L2 in Hd.
          apply In_nth_error in Hd as [j Hj]. eapply L3; eauto.
          apply nth_error_None in NE. assert (nth_error (sh_kids s') j <> None) by congruence.
          apply nth_error_Some in H. lia.
    - (* IClrClear *)
      destruct IT as [P1 [L1 P2]]. unfold post in P1.
      assert (ST: sh_st s = CEdit) by (cn; destruct (sh_st s); auto; lia).
      inversion E; subst; clear E. exists [], a. split; [reflexivity|]. split; [constructor|]. rewrite app_nil_r.
      cn. rewrite ST in *. norm; eapply inv_step with (k := k) (1 := V); cn; rewrite ?ST; fin.
      * right; eauto.
      * intros it' [<-|[]]. cbn. split; auto.
    - (* IClrUnlock *)
      destruct IT as [P1 P2]. unfold post in P1.
      assert (ST: sh_st s = CEdit) by (cn; destruct (sh_st s); auto; lia).
      cn. rewrite ST in *. inversion E; subst; clear E.
      exists [AVis (LRet k OClear true)], a. split; [reflexivity|]. split.
      { econstructor; [constructor; exact P2|constructor]. }
      norm; eapply inv_step with (k := k) (1 := V); cn; fin.
      * fother.
      * intros _. split; auto. exists OClear, true. fself. now rewrite P1.
    - (* IDspCas *)
      destruct IT as [P1 P2].
      destruct (sh_st s) eqn:ST; inversion E; subst; clear E.
      + cn. rewrite ST in *. assert (S0: cnt sens l = 0) by lia.
        assert (AK: a_kids a = sh_kids s) by auto.
        exists [ALin k ODispose true], (AState [] true (map (pair k) (a_kids a) ++ a_owed a) (a_gone a)).
        split; [reflexivity|]. split.
        { econstructor; [constructor; now apply SDispose|constructor]. }
        norm; eapply inv_step with (k := k) (1 := V); cn; fin.
        * right; eauto.
        * fother.
        * cbn. intros j d' NE. rewrite in_app_iff, pair_in. intuition congruence.
        * intros it' [<-|[]]. cbn. split; [unfold post; fself; now rewrite P1|].
          repeat split; cbn; try lia.
          -- rewrite in_app_iff, pair_in. intros [[_ X]|X]; [now rewrite <- AK|now apply P2 in X].
          -- intro X. rewrite in_app_iff, pair_in. left. now rewrite AK.
      + exists [], a. split; [reflexivity|]. split; [constructor|]. rewrite app_nil_r. exact V.
      + exists [ALin k ODispose true; AVis (LRet k ODispose true)], a.
        split; [reflexivity|]. split.
        { econstructor; [constructor; now apply SDisposeDead|econstructor; [constructor|constructor]].
          intros x Hx. now apply P2 in Hx. }
        cn. rewrite ST in *. norm; eapply inv_step with (k := k) (1 := V); cn; rewrite ?ST; fin.
        * fother.
        * intros _. split; [|intros x Hx; now apply P2 in Hx].
          exists ODispose, true. fself. rewrite P1. reflexivity.
    - (* IDspLoop *)
      destruct IT as [P1 (L1 & L2 & L3)]. unfold post in P1.
      assert (ST: sh_st s = CDisposed) by (cn; destruct (sh_st s); auto; lia).
      destruct (nth_error (sh_kids s) i) as [d|] eqn:NE.
      + cn. destruct (kill acts s d) as [[s1 i1] fr] eqn:KL. inversion E; subst; clear E.
        rewrite <- app_assoc.
        eapply sim_kill; eauto.
        { apply L2. eapply nth_error_In; eauto. }
        intros a' es SM ER FI E1 E2 E3 E4 E5 E6 E7 E8 E9 E10.
        norm; eapply inv_step with (k := k) (1 := V); cn; rewrite ?E7, ?E8, ?E1, ?E2, ?E3; fin.
        * right; eauto.
        * intros. rewrite fil_self, FI. apply app_nil_r.
        * intros it' [<-|[]]. cbn. split.
          -- unfold post. rewrite fil_self, FI, P1. reflexivity.
          -- unfold loop_ok. rewrite E8, E3, E1. repeat split; auto; try apply L2.
             intros j x Hj Hn. destruct (Nat.eq_dec j i) as [->|]; [congruence|].
             apply E5. eapply L3; eauto. lia.
      + inversion E; subst; clear E. exists [], a. split; [reflexivity|]. split; [constructor|]. rewrite app_nil_r.
        cn. rewrite ST in *. norm; eapply inv_step with (k := k) (1 := V); cn; rewrite ?ST; fin.
        * right; eauto.
        * intros it' [<-|[]]. cbn. repeat split; auto. intros d Hd. apply L2 in Hd.
          apply In_nth_error in Hd as [j Hj]. eapply L3; eauto.
          apply nth_error_None in NE. assert (nth_error (sh_kids s') j <> None) by congruence.
          apply nth_error_Some in H. lia.
    - (* IDspClear *)
      destruct IT as [P1 [L1 P2]]. unfold post in P1.
      assert (ST: sh_st s = CDisposed) by (cn; destruct (sh_st s); auto; lia).
      inversion E; subst; clear E. exists [AVis (LRet k ODispose true)], a. split; [reflexivity|]. split.
      { econstructor; [constructor; exact P2|constructor]. }
      cn. rewrite ST in *. norm; eapply inv_step with (k := k) (1 := V); cn; rewrite ?ST; fin.
      * fother.
      * intros _. split; auto. exists ODispose, true. fself. now rewrite P1.
  Qed.
End Sim.

(** ---------------------------------------------------------------- abstract runs *)
Lemma spec_run_inv : forall cap a l c, spec_run cap a l c ->
  (l = [] /\ c = a) \/ exists t e b, l = t ++ [e] /\ spec_run cap a t b /\ spec_step cap e b c.
Proof. intros cap a l c R. destruct R; [left; auto|right; eauto 6]. Qed.

Lemma spec_run_app : forall cap x a y c, spec_run cap a (x ++ y) c ->
  exists b, spec_run cap a x b /\ spec_run cap b y c.
Proof.
  intros cap x a y. revert x a. induction y as [|e y IH] using rev_ind; intros x a c R.
  - rewrite app_nil_r in R. exists c. split; auto. constructor.
  - rewrite app_assoc in R. apply spec_run_inv in R as [[R _]|(t & e' & b' & E1 & R1 & S)]; [destruct (x ++ y); discriminate|].
    apply app_inj_tail in E1 as [<- <-].
    apply IH in R1 as (b & B1 & B2). exists b. split; auto. econstructor; eauto.
Qed.

Lemma spec_run_cons : forall cap e a y c, spec_run cap a (e :: y) c ->
  exists b, spec_step cap e a b /\ spec_run cap b y c.
Proof.
  intros cap e a y c R. change (e :: y) with ([e] ++ y) in R.
  apply spec_run_app in R as (b & R1 & R2). exists b. split; auto.
  apply spec_run_inv in R1 as [[R1 _]|(t & e' & b' & E1 & R1 & S)]; [discriminate|].
  destruct t as [|? [|? ?]]; inversion E1; subst.
  apply spec_run_inv in R1 as [[_ ->]|(t & e'' & b'' & E2 & _ & _)]; auto.
  destruct t; discriminate.
Qed.

Lemma erase_app : forall x y, erase (x ++ y) = erase x ++ erase y.
Proof. induction x as [|[l|k o b] x IH]; intros y; cbn; auto. now rewrite IH. Qed.

Lemma erase_split : forall atr t1 l t2, erase atr = t1 ++ l :: t2 ->
  exists u1 u2, atr = u1 ++ AVis l :: u2 /\ erase u1 = t1 /\ erase u2 = t2.
Proof.
  induction atr as [|[m|k o b] atr IH]; intros t1 l t2 E; cbn in E.
  - destruct t1; discriminate.
  - destruct t1 as [|x t1]; inversion E; subst.
    + exists [], atr. auto.
    + apply IH in H1 as (u1 & u2 & -> & <- & <-). exists (AVis x :: u1), u2. auto.
  - apply IH in E as (u1 & u2 & -> & <- & <-). exists (ALin k o b :: u1), u2. auto.
Qed.

Lemma erase_in : forall l tr, In l (erase tr) <-> In (AVis l) tr.
Proof.
  intros l tr. induction tr as [|[m|k o b] tr IH]; cbn; [tauto| |].
  - rewrite IH. intuition congruence.
  - rewrite IH. intuition congruence.
Qed.

Lemma lin_before_ret : forall x k o b z,
  lin_points_inside (x ++ AVis (LRet k o b) :: z) -> In (ALin k o b) x.
Proof.
  intros x k o b z S. specialize (S k). rewrite filter_app in S. cbn in S. rewrite Nat.eqb_refl in S.
  assert (X: filter (of_call k) x = [AVis (LInv k o); ALin k o b] \/ exists y, filter (of_call k) x = y /\ False).
  { left. destruct S as [S|(k' & o' & b' & [S|[S|S]])].
    - destruct (filter (of_call k) x); discriminate.
    - destruct (filter (of_call k) x) as [|? [|? ?]]; inversion S.
    - destruct (filter (of_call k) x) as [|? [|? [|? ?]]]; inversion S.
    - destruct (filter (of_call k) x) as [|? [|? [|? ?]]]; inversion S; subst; auto.
      destruct l; discriminate. }
  destruct X as [X|(? & ? & [])].
  apply (filter_In (of_call k)). rewrite X. cbn; auto.
Qed.

Lemma lin_between : forall x k o y o' b z,
  lin_points_inside (x ++ AVis (LInv k o) :: y ++ AVis (LRet k o' b) :: z) ->
  o' = o /\ In (ALin k o b) y.
Proof.
  intros x k o y o' b z S. specialize (S k). rewrite filter_app in S. cbn in S. rewrite Nat.eqb_refl, filter_app in S.
  cbn in S. rewrite Nat.eqb_refl in S.
  set (fx := filter (of_call k) x) in *. remember (filter (of_call k) y) as fy eqn:F.
  set (fz := filter (of_call k) z) in *. clearbody fx fz.
  assert (Y: o' = o /\ fy = [ALin k o b]).
  { clear F. destruct S as [S|(k' & o2 & b' & [S|[S|S]])];
      destruct fx as [|? [|? [|? [|? ?]]]]; inversion S; subst;
      destruct fy as [|? [|? [|? ?]]]; try discriminate;
      match goal with H : _ ++ _ = _ |- _ => inversion H | H : _ :: _ = _ |- _ => inversion H | _ => idtac end; subst; auto. }
  destruct Y as [-> ->]. split; auto. apply (filter_In (of_call k)). rewrite <- F. now left.
Qed.

Lemma inv_of_lin : forall tr k o b, lin_points_inside tr -> In (ALin k o b) tr -> In (AVis (LInv k o)) tr.
Proof.
  intros tr k o b S I. specialize (S k).
  assert (F: In (ALin k o b) (filter (of_call k) tr)) by (apply filter_In; cbn; now rewrite Nat.eqb_refl).
  assert (G: In (AVis (LInv k o)) (filter (of_call k) tr)).
  { destruct S as [S|(k' & o2 & b' & [S|[S|S]])]; rewrite S in F |- *; cbn in F.
    - tauto.
    - intuition discriminate.
    - destruct F as [F|[F|[]]]; inversion F; subst. now left.
    - destruct F as [F|[F|[F|[]]]]; inversion F; subst. now left. }
  now apply filter_In in G.
Qed.

Ltac ilin := match goal with H : lin_step _ _ _ _ _ _ |- _ => inversion H; subst; clear H end.

Lemma dead_step : forall cap e a b, spec_step cap e a b -> a_dead a = true -> a_dead b = true.
Proof. intros cap e a b S D. inversion S; subst; auto. ilin; cbn in *; congruence. Qed.
Lemma dead_run : forall cap a tr b, spec_run cap a tr b -> a_dead a = true -> a_dead b = true.
Proof. induction 1; auto. intro. eapply dead_step; eauto. Qed.
Lemma gone_step : forall cap e a b, spec_step cap e a b -> incl (a_gone a) (a_gone b).
Proof.
  intros cap e a b S. inversion S; subst; try apply incl_refl; try (intros x Hx; now right).
  ilin; apply incl_refl.
Qed.
Lemma gone_run : forall cap a tr b, spec_run cap a tr b -> incl (a_gone a) (a_gone b).
Proof. induction 1; [apply incl_refl|]. eapply incl_tran; eauto using gone_step. Qed.
Lemma owed_step : forall cap e a b, spec_step cap e a b -> incl (a_owed a) (a_owed b).
Proof.
  intros cap e a b S. inversion S; subst; try apply incl_refl.
  ilin; cbn; try apply incl_refl; try (intros x Hx; now right); intros x Hx; apply in_or_app; now right.
Qed.
Lemma owed_run : forall cap a tr b, spec_run cap a tr b -> incl (a_owed a) (a_owed b).
Proof. induction 1; [apply incl_refl|]. eapply incl_tran; eauto using owed_step. Qed.

Lemma dead_after_dispose : forall cap a tr b k ok,
  spec_run cap a tr b -> In (ALin k ODispose ok) tr -> a_dead b = true.
Proof.
  intros cap a tr b k ok R I. apply in_split in I as (x & y & ->).
  apply spec_run_app in R as (c & R1 & R2). apply spec_run_cons in R2 as (c' & S & R2).
  eapply dead_run; eauto. inversion S; subst. ilin; auto.
Qed.

Lemma gone_trace : forall cap a tr b, spec_run cap a tr b -> forall d,
  In d (a_gone b) <-> In d (a_gone a) \/ disposed_in (erase tr) d.
Proof.
  unfold disposed_in. induction 1 as [a|a tr b e c R IH S]; intro d.
  - cbn. split; auto. intros [X|[[k []]|[]]]; auto.
  - specialize (IH d). rewrite erase_app.
    assert (X: In d (a_gone c) <-> In d (a_gone b) \/ (exists k, In (LKill k d) (erase [e])) \/ In (LUserKill d) (erase [e])).
    { inversion S; subst; cbn.
      - ilin; cbn; split; auto; intros [Y|[[? []]|[]]]; auto.
      - split; auto. intros [Y|[[? [?|[]]]|[?|[]]]]; auto; discriminate.
      - split; auto. intros [Y|[[? [?|[]]]|[?|[]]]]; auto; discriminate.
      - split.
        + intros [->|Y]; auto. right; left; exists k; now left.
        + intros [Y|[[? [Y|[]]]|[Y|[]]]]; auto; inversion Y; auto.
      - split.
        + intros [->|Y]; auto.
        + intros [Y|[[? [Y|[]]]|[Y|[]]]]; auto; inversion Y; auto. }
    rewrite X, IH. split.
    + intros [[Y|[[k Y]|Y]]|[[k Y]|Y]]; auto; right; (left; exists k; apply in_or_app; auto; fail) || (right; apply in_or_app; auto).
    + intros [Y|[[k Y]|Y]]; auto; apply in_app_or in Y as [Y|Y]; auto.
      * left; right; left; eauto.
      * right; left; eauto.
Qed.

(** A child that was added is accounted for until it is removed. *)
Definition accounted (a : astate) (d : nat) : Prop :=
  In d (a_kids a) \/ In d (a_gone a) \/ exists k, In (k, d) (a_owed a).

Lemma acc_step : forall cap e a b d, spec_step cap e a b ->
  (forall k ok, e <> ALin k (ORemove d) ok) -> accounted a d -> accounted b d.
Proof.
  unfold accounted. intros cap e a b d S N A.
  assert (G := gone_step _ _ _ _ S d). assert (O: forall k, In (k, d) (a_owed a) -> In (k, d) (a_owed b)) by (intro k; apply (owed_step _ _ _ _ S)).
  destruct A as [A|[A|[k A]]]; eauto.
  inversion S; subst; auto. ilin; cbn in *; auto.
  - left. apply in_or_app; auto.
  - destruct (Nat.eq_dec d0 d) as [->|NE].
    + exfalso. eapply N; eauto.
    + left. apply filter_In. split; auto. apply negb_true_iff. apply Nat.eqb_neq. auto.
  - right; right. exists k. apply in_or_app. left. now apply in_map.
  - right; right. exists k. apply in_or_app. left. now apply in_map.
Qed.
Lemma acc_run : forall cap a tr b d, spec_run cap a tr b ->
  (forall k ok, ~ In (ALin k (ORemove d) ok) tr) -> accounted a d -> accounted b d.
Proof.
  induction 1 as [|a tr b e c R IH S]; auto. intros N A. eapply acc_step; eauto.
  - intros k ok E. apply (N k ok). apply in_or_app. right. now left.
  - apply IH; auto. intros k ok I. apply (N k ok). apply in_or_app. auto.
Qed.
Lemma acc_add : forall cap a b k d, spec_step cap (ALin k (OAdd d) true) a b -> d <> self -> accounted b d.
Proof.
  intros cap a b k d S N. unfold accounted. inversion S; subst. ilin; cbn.
  - destruct H0; [congruence|auto].
  - right; right. exists k. now left.
  - left. apply in_or_app. right. now left.
Qed.

(** ---------------------------------------------------------------- executions *)
Section Exec.
  Variable acts : nat -> list op.
  Variable cap : option nat.

  Lemma inv_init : forall progs, Inv (fst (c_init progs)) (concat (snd (c_init progs))) [] a_init.
  Proof.
    intro progs. unfold c_init. cbn [fst snd].
    replace (concat (map (map IOp) progs)) with (map IOp (concat progs)).
    2:{ induction progs; cbn; auto. now rewrite map_app, IHprogs. }
    rewrite <- (app_nil_r (map IOp (concat progs))). apply Inv_ops.
    constructor; cbn; auto; try tauto; try lia; try constructor; auto.
  Qed.

  Lemma exec_inv : forall progs tr c, exec acts cap (c_init progs) tr c ->
    exists atr a, erase atr = tr /\ spec_run cap a_init atr a /\ Inv (fst c) (concat (snd c)) atr a.
  Proof.
    intros progs tr c E. remember (c_init progs) as c0 eqn:E0.
    induction E as [c|c tr c1 ls c2 E IH S]; subst.
    - exists [], a_init. split; auto. split; [constructor|]. apply inv_init.
    - destruct (IH eq_refl) as (atr & a & E1 & R & V).
      inversion S as [s ts1 it rest ts2 s' its ls' I]; subst. cbn [fst snd] in *.
      rewrite concat_app in V. cbn [concat] in V.
      assert (V': Inv s (it :: concat ts1 ++ rest ++ concat ts2) atr a).
      { eapply Inv_perm; [|exact V]. cbn. symmetry. apply Permutation_middle. }
      destruct (sim acts cap _ _ _ _ _ _ _ _ V' I) as (es & a' & E2 & M & V2).
      exists (atr ++ es), a'. split; [rewrite erase_app; congruence|].
      split; [eapply spec_run_many; eauto|].
      eapply Inv_perm; [|exact V2]. rewrite concat_app. cbn [concat].
      rewrite <- app_assoc. rewrite Permutation_app_swap_app. reflexivity.
  Qed.

  Lemma inv_shape : forall s l atr a, Inv s l atr a -> lin_points_inside atr.
  Proof.
    intros s l atr a V k.
    destruct (le_lt_dec (sh_next s) k) as [L|L].
    - left. now apply (i_fresh _ _ _ _ V).
    - destruct (in_dec Nat.eq_dec k (ids l)) as [I|N].
      + unfold ids in I. apply in_flat_map in I as (it & I1 & I2).
        pose proof (i_items _ _ _ _ V _ I1) as OK.
        destruct it as [o|k0 d|k0 d|k0 d|k0 d ok|k0 d|k0 d|k0 d|k0 d|k0 d|k0|k0 i|k0|k0|k0|k0 i|k0];
          cbn in I2; (destruct I2 as [<-|[]] || destruct I2); cbn [item_ok] in OK;
          unfold pre, post in OK; right;
          repeat match goal with H : _ /\ _ |- _ => destruct H end;
          match goal with H : filter _ _ = ?r |- _ => rewrite H;
             match r with
             | [AVis (LInv ?k ?o)] => exists k, o, true; auto
             | [AVis (LInv ?k ?o); ALin _ _ ?b] => exists k, o, b; auto
             end
          end.
      + destruct (i_done _ _ _ _ V k L N) as [(o & ok & E) _]. right. rewrite E. exists k, o, ok. auto.
  Qed.

  Lemma finished_concat : forall c : config, finished c -> concat (snd c) = [].
  Proof.
    intros [s ts] F. cbn. unfold finished in F. cbn in F. induction ts as [|t ts IH]; auto.
    cbn. rewrite (F t), IH; auto. intros x Hx. apply F. now right. now left.
  Qed.

  Theorem linearizable : forall progs tr c, exec acts cap (c_init progs) tr c ->
    exists atr a,
      erase atr = tr /\ lin_points_inside atr /\ spec_run cap a_init atr a /\
      a_dead a = match sh_st (fst c) with CDisposed => true | _ => false end /\
      a_gone a = sh_gone (fst c) /\
      (sh_st (fst c) = CNone -> a_kids a = sh_kids (fst c)) /\
      (finished c -> a_kids a = sh_kids (fst c) /\ forall k d, In (k, d) (a_owed a) -> In d (a_gone a)).
  Proof.
    intros progs tr c E. destruct (exec_inv _ _ _ E) as (atr & a & E1 & R & V).
    exists atr, a. split; auto. split; [eapply inv_shape; eauto|]. split; auto.
    pose proof (i_dead _ _ _ _ V). pose proof (i_gone _ _ _ _ V).
    repeat split; auto.
    - intro ST. apply (i_kids _ _ _ _ V). pose proof (sens_le (concat (snd c))).
      pose proof (i_crit _ _ _ _ V) as C. pose proof (i_dsp _ _ _ _ V) as D.
      unfold want_crit, want_dsp in *. rewrite ST in *. lia.
    - apply (i_kids _ _ _ _ V). rewrite finished_concat; auto.
    - intros k d I. destruct (le_lt_dec (sh_next (fst c)) k) as [L|L].
      + destruct (i_fresh _ _ _ _ V k L) as [_ F]. now apply F in I.
      + apply (i_done _ _ _ _ V k L); auto. rewrite finished_concat; auto.
  Qed.

  Lemma exec_app : forall c tr1 c1 tr2 c2, exec acts cap c tr1 c1 -> exec acts cap c1 tr2 c2 -> exec acts cap c (tr1 ++ tr2) c2.
  Proof.
    intros c tr1 c1 tr2 c2 E1 E2. revert E1. induction E2; intro E1.
    - now rewrite app_nil_r.
    - rewrite app_assoc. econstructor; eauto.
  Qed.

  (** C06. *)
  Theorem nothing_survives : forall progs tr c k kd d,
    exec acts cap (c_init progs) tr c -> finished c ->
    In (LInv kd ODispose) tr -> In (LRet k (OAdd d) true) tr -> d <> self ->
    (forall j, ~ In (LInv j (ORemove d)) tr) ->
    disposed_in tr d.
  Proof.
    intros progs tr c k kd d E F D A NS NR.
    destruct (exec_inv _ _ _ E) as (atr0 & a0 & E0 & R0 & V0).
    destruct (linearizable _ _ _ E) as (atr & a & E1 & S & R & DD & G & _ & FI).
    destruct (FI F) as [FK FO]. clear FI.
    (* the dispose call has returned *)
    assert (DEAD: a_dead a = true).
    { (* every call of a finished configuration is complete *)
      assert (X: exists ok, In (ALin kd ODispose ok) atr0).
      { rewrite <- E0 in D. apply erase_in in D.
        assert (FI: In (AVis (LInv kd ODispose)) (filter (of_call kd) atr0)) by (apply filter_In; cbn; now rewrite Nat.eqb_refl).
        destruct (le_lt_dec (sh_next (fst c)) kd) as [L|L].
        - destruct (i_fresh _ _ _ _ V0 kd L) as [Y _]. rewrite Y in FI. destruct FI.
        - destruct (i_done _ _ _ _ V0 kd L) as [(o & ok & Y) _]; [rewrite finished_concat; auto|].
          rewrite Y in FI. cbn in FI. destruct FI as [FI|[FI|[FI|[]]]]; inversion FI; subst.
          exists ok. apply (filter_In (of_call kd)). rewrite Y. cbn; auto. }
      destruct X as [ok X]. pose proof (dead_after_dispose _ _ _ _ _ _ R0 X) as X2.
      rewrite (i_dead _ _ _ _ V0) in X2. now rewrite DD. }
    assert (AC: accounted a d).
    { rewrite <- E1 in A. apply erase_in in A. apply in_split in A as (x & z & ->).
      pose proof (lin_before_ret _ _ _ _ _ S) as L. apply in_split in L as (x1 & x2 & ->).
      rewrite <- app_assoc in R. apply spec_run_app in R as (b & R1 & R2).
      cbn [app] in R2. apply spec_run_cons in R2 as (b' & R2 & R3).
      eapply acc_run; [exact R3| |eapply acc_add; eauto].
      intros j ok I.
      assert (I': In (ALin j (ORemove d) ok) ((x1 ++ ALin k (OAdd d) true :: x2) ++ AVis (LRet k (OAdd d) true) :: z)).
      { rewrite <- app_assoc. apply in_or_app. right. right. exact I. }
      apply (inv_of_lin _ _ _ _ S) in I'. apply erase_in in I'. rewrite E1 in I'. now apply NR in I'. }
    assert (KN: a_kids a = []).
    { assert (Y: forall cap a0 t b, spec_run cap a0 t b -> (a_dead a0 = true -> a_kids a0 = []) -> a_dead b = true -> a_kids b = []).
      { clear. induction 1 as [|a0 tr b e c R IH St]; auto. intros H0 H1.
        specialize (IH H0). inversion St; subst; cbn in *; auto.
        ilin; cbn in *; auto; congruence. }
      eapply Y; [exact R| |exact DEAD]; cbn; discriminate. }
    destruct AC as [AC|AC]; [rewrite KN in AC; destruct AC|].
    assert (GA: In d (a_gone a)) by (destruct AC as [AC|[j AC]]; eauto).
    rewrite (gone_trace _ _ _ _ R) in GA. destruct GA as [GA|GA]; [destruct GA|]. now rewrite <- E1.
  Qed.

  Theorem no_premature : forall progs tr c t1 k d t2,
    exec acts cap (c_init progs) tr c -> tr = t1 ++ LKill k d :: t2 ->
    exists j, In (LInv j OClear) t1 \/ In (LInv j ODispose) t1.
  Proof.
    intros progs tr c t1 k d t2 E ->.
    destruct (linearizable _ _ _ E) as (atr & a & E1 & S & R & _).
    apply erase_split in E1 as (u1 & u2 & -> & <- & _).
    apply spec_run_app in R as (b & R1 & R2). apply spec_run_cons in R2 as (b' & R2 & _).
    assert (X: exists j ok, In (ALin j OClear ok) u1 \/ In (ALin j ODispose ok) u1).
    { assert (O: a_owed b <> [] \/ a_dead b = true).
      { left. inversion R2; subst. intro Z. match goal with H : In _ (a_owed b) |- _ => rewrite Z in H; destruct H end. }
      clear - R1 O. remember a_init as a0 eqn:E0.
      induction R1 as [|a0 tr b e c R IH St]; subst.
      - cbn in O. destruct O; congruence.
      - assert (Y: (a_owed b <> [] \/ a_dead b = true) \/ exists j ok, e = ALin j OClear ok \/ e = ALin j ODispose ok).
        { inversion St; subst; cbn in *; auto; try (left; tauto). ilin; cbn in *; auto.
          - left. destruct O; [auto|discriminate].
          - left. destruct O; [auto|discriminate].
          - right. eauto.
          - right. eauto. }
        destruct Y as [Y|(j & ok & Y)].
        + destruct (IH eq_refl Y) as (j & ok & Z). exists j, ok. rewrite !in_app_iff. tauto.
        + exists j, ok. rewrite !in_app_iff. cbn. intuition auto. }
    destruct X as (j & ok & X). exists j.
    assert (SI: lin_points_inside u1 \/ True) by auto.
    (* invocation precedes the linearization point *)
    assert (P: forall o, In (ALin j o ok) u1 -> In (AVis (LInv j o)) u1).
    { intros o I. apply in_split in I as (p & q & ->).
      specialize (S j). rewrite !filter_app in S. cbn in S. rewrite Nat.eqb_refl in S.
      assert (FP: In (AVis (LInv j o)) (filter (of_call j) p)).
      { rewrite <- app_assoc in S.
        destruct S as [S|(k' & o2 & b2 & [S|[S|S]])].
        - destruct (filter (of_call j) p); discriminate.
        - destruct (filter (of_call j) p) as [|? [|? ?]]; inversion S.
        - destruct (filter (of_call j) p) as [|? [|? [|? ?]]]; inversion S; subst. now left.
        - destruct (filter (of_call j) p) as [|? [|? [|? [|? ?]]]]; inversion S; subst. now left. }
      apply filter_In in FP. apply in_or_app. tauto. }
    destruct X as [X|X]; [left|right]; apply erase_in; auto.
  Qed.

  (** C07. *)
  Theorem late_add : forall progs c t1 k1 b1 t2 k2 d t3 b2 t4,
    exec acts cap (c_init progs)
      (t1 ++ LRet k1 ODispose b1 :: t2 ++ LInv k2 (OAdd d) :: t3 ++ LRet k2 (OAdd d) b2 :: t4) c ->
    d <> self ->
    disposed_in (t1 ++ LRet k1 ODispose b1 :: t2 ++ LInv k2 (OAdd d) :: t3) d.
  Proof.
    intros progs c t1 k1 b1 t2 k2 d t3 b2 t4 E NS.
    destruct (linearizable _ _ _ E) as (atr & a & E1 & S & R & _).
    apply erase_split in E1 as (u1 & v1 & -> & <- & E1).
    apply erase_split in E1 as (u2 & v2 & -> & <- & E1).
    apply erase_split in E1 as (u3 & u4 & -> & <- & <-).
    pose proof (lin_before_ret _ _ _ _ _ S) as L1.
    assert (L2: In (ALin k2 (OAdd d) b2) u3).
    { rewrite app_comm_cons, app_assoc in S. apply lin_between in S. tauto. }
    apply spec_run_app in R as (r1 & R1 & R). pose proof (dead_after_dispose _ _ _ _ _ _ R1 L1) as D1.
    apply spec_run_cons in R as (r2 & S2 & R). apply dead_step in S2 as D2; auto.
    apply spec_run_app in R as (r3 & R3 & R). apply dead_run in R3 as D3; auto.
    apply spec_run_cons in R as (r4 & S4 & R). apply dead_step in S4 as D4; auto.
    apply spec_run_app in R as (r5 & R5 & R).
    apply spec_run_cons in R as (r6 & S6 & R).
    assert (G: In d (a_gone r5)).
    { apply in_split in L2 as (x & y & ->). apply spec_run_app in R5 as (p & P1 & P2).
      apply dead_run in P1 as DP; auto. apply spec_run_cons in P2 as (q & Q1 & Q2).
      inversion Q1; subst. ilin; try congruence.
      - eapply gone_run; eauto. match goal with H : _ \/ _ |- _ => destruct H; [congruence|auto] end.
      - inversion S6; subst. match goal with H : forall d, In _ _ -> _ |- _ => apply H end.
        eapply owed_run; eauto. now left. }
    assert (RR: spec_run cap a_init (u1 ++ [AVis (LRet k1 ODispose b1)] ++ u2 ++ [AVis (LInv k2 (OAdd d))] ++ u3) r5).
    { assert (APP: forall a x b y c, spec_run cap a x b -> spec_run cap b y c -> spec_run cap a (x ++ y) c).
      { clear. intros a x b y c X Y. induction Y; [now rewrite app_nil_r|]. rewrite app_assoc. econstructor; eauto. }
      assert (ONE: forall e a b, spec_step cap e a b -> spec_run cap a [e] b).
      { clear. intros. change [e] with ([] ++ [e]). econstructor; eauto. constructor. }
      eauto 10. }
    rewrite (gone_trace _ _ _ _ RR) in G. destruct G as [[]|G].
    rewrite !erase_app in G. exact G.
  Qed.

  Theorem disposed_forever : forall progs tr c k b,
    exec acts cap (c_init progs) tr c -> In (LRet k ODispose b) tr -> sh_st (fst c) = CDisposed.
  Proof.
    intros progs tr c k b E I. destruct (linearizable _ _ _ E) as (atr & a & E1 & S & R & D & _).
    rewrite <- E1 in I. apply erase_in in I. apply in_split in I as (x & z & ->).
    pose proof (lin_before_ret _ _ _ _ _ S) as L.
    assert (X: a_dead a = true) by (eapply dead_after_dispose; [exact R|apply in_or_app; left; exact L]).
    rewrite X in D. destruct (sh_st (fst c)); congruence.
  Qed.

  (** After disposal the child list never grows. *)
  Theorem no_new_kids : forall progs tr c tr' c',
    exec acts cap (c_init progs) tr c -> sh_st (fst c) = CDisposed -> exec acts cap c tr' c' ->
    sh_st (fst c') = CDisposed /\ incl (sh_kids (fst c')) (sh_kids (fst c)).
  Proof.
    intros progs tr c tr' c' E ST E'. revert E ST.
    induction E' as [|c tr' c1 ls c2 E' IH S]; intros E ST; [split; auto; apply incl_refl|].
    destruct (IH E ST) as [ST1 K1].
    destruct (exec_inv _ _ _ (exec_app _ _ _ _ _ E E')) as (atr & a & _ & _ & V).
    inversion S as [s ts1 it rest ts2 s' its ls' I]; subst. cbn [fst snd] in *.
    pose proof (i_crit _ _ _ _ V) as C. unfold want_crit in C. rewrite ST1 in C.
    assert (CI: crit it = false).
    { apply (cnt_zero _ _ C). rewrite concat_app. apply in_or_app. right. now left. }
    clear - ST1 K1 CI I.
    destruct it as [o|k d|k d|k d|k d ok|k d|k d|k d|k d|k d|k|k i|k|k|k|k i|k]; cbn in CI; try discriminate; cbn [istep] in I.
    all: try (rewrite ST1 in I; inversion I; subst; auto; fail).
    - unfold kill in I. destruct o; [inversion I; subst; auto..|]. destruct (memb d (sh_gone s)); inversion I; subst; auto.
    - destruct (_ || _); inversion I; subst; auto.
    - unfold kill in I. destruct (memb d (sh_gone s)); inversion I; subst; auto.
    - inversion I; subst; auto.
    - destruct (nth_error (sh_kids s) i); [|inversion I; subst; auto].
      unfold kill in I. destruct (memb n (sh_gone s)); inversion I; subst; auto.
    - inversion I; subst; cbn. split; auto. intros x [].
  Qed.

  (** Only one thread at a time touches the child list. *)
  Theorem exclusive : forall progs tr s ts1 i1 r1 ts2 i2 r2 ts3,
    exec acts cap (c_init progs) tr (s, ts1 ++ (i1 :: r1) :: ts2 ++ (i2 :: r2) :: ts3) ->
    ~ (crit i1 || dsp i1 = true /\ crit i2 || dsp i2 = true).
  Proof.
    intros progs tr s ts1 i1 r1 ts2 i2 r2 ts3 E [A B].
    destruct (exec_inv _ _ _ E) as (atr & a & _ & _ & V). cbn [fst snd] in V.
    pose proof (i_crit _ _ _ _ V) as C. pose proof (i_dsp _ _ _ _ V) as D.
    repeat (rewrite ?concat_app in C, D; cbn [concat app] in C, D; rewrite ?cnt_app, ?cnt_cons in C, D).
    unfold want_crit, want_dsp in *.
    destruct (crit i1) eqn:?, (dsp i1) eqn:?, (crit i2) eqn:?, (dsp i2) eqn:?, (sh_st s); cbn in *; try discriminate; lia.
  Qed.

  (** ------------------------------------------------------------ progress *)
  (** The item waits for the Edit state to be left. *)
  Definition spinning (s : shared) (it : item) : bool :=
    match it, sh_st s with
    | IAddCas _ _, CEdit | IRemCas _ _, CEdit | IClrCas _, CEdit | IDspCas _, CEdit => true
    | _, _ => false
    end.

  Definition clr (it : item) : bool :=
    match it with IOp OClear | IClrCas _ | IClrLoop _ _ | IClrClear _ | IClrUnlock _ => true | _ => false end.

  (** Either disposal actions of the children do not touch the composite or clear is
      never called. *)
  Definition shallow (progs : list (list op)) : Prop :=
    (forall d, acts d = []) \/
    ((forall p, In p progs -> ~ In OClear p) /\ forall d, ~ In OClear (acts d)).

  (** The holder of Edit is at the head of its thread. *)
  Definition crit_first (t : list item) : Prop := cnt crit (tl t) = 0.

  Lemma cnt_tl : forall f t, cnt f (tl t) <= cnt f t.
  Proof. intros f [|x t]; cbn; auto. rewrite cnt_cons. lia. Qed.

  Lemma clr_ops : forall l, ~ In OClear l -> cnt clr (map IOp l) = 0.
  Proof.
    intros l N. apply cnt_zero_of. intros x H. apply in_map_iff in H as (o & <- & H).
    destruct o; cbn; auto. contradiction.
  Qed.

  Lemma step_first : forall s it s' its ls,
    istep acts cap s it = (s', its, ls) ->
    ((forall d, acts d = []) \/ ((forall d, ~ In OClear (acts d)) /\ clr it = false)) ->
    cnt crit (tl its) = 0 /\ ((forall d, acts d = []) \/ cnt clr its = 0).
  Proof.
    intros s it s' its ls I H.
    assert (CO: forall l, cnt crit (map IOp l) = 0) by (intro; now apply cnt_ops).
    destruct it as [o|k d|k d|k d|k d ok|k d|k d|k d|k d|k d|k|k i|k|k|k|k i|k]; cbn [istep] in I; unfold kill in I.
    1:{ destruct o as [d|d| | |d].
        5:{ destruct (memb d (sh_gone s)); inversion I; subst; cbn; auto. split.
            - pose proof (cnt_tl crit (map IOp (acts d))). rewrite CO in H0. lia.
            - destruct H as [H|[H _]]; auto. right. now apply clr_ops. }
        all: inversion I; subst; split; [reflexivity|]; destruct H as [H|[_ H]]; [auto|]; try discriminate; right; reflexivity. }
    all: try (destruct (_ || _)); try (destruct (sh_st s)); try (destruct (room cap (sh_kids s)));
         try (destruct (nth_error (sh_kids s) i) as [e|]); try (destruct (memb _ (sh_gone s)));
         inversion I; subst; cbn [tl app]; try (split; [reflexivity|auto; fail]).
    all: try (split; [reflexivity|]; destruct H as [H|[_ H]]; [auto|discriminate]).
    all: destruct H as [H|[H1 H2]]; try discriminate; rewrite ?H; cbn [map app tl]; auto.
    all: match goal with |- cnt crit (tl ?l) = 0 /\ _ => pose proof (cnt_tl crit l) as T end;
      rewrite !cnt_app, !CO, cnt_cons, cnt_nil in T; cbn in T; split; [lia|right];
      rewrite cnt_app, clr_ops by auto; reflexivity.
  Qed.

  Lemma exec_first : forall progs tr c, shallow progs -> exec acts cap (c_init progs) tr c ->
    (forall t, In t (snd c) -> crit_first t) /\
    ((forall d, acts d = []) \/ ((forall d, ~ In OClear (acts d)) /\ forall t, In t (snd c) -> cnt clr t = 0)).
  Proof.
    intros progs tr c SH E. remember (c_init progs) as c0 eqn:E0.
    induction E as [c|c tr c1 ls c2 E IH S]; subst.
    - split.
      + intros t H. cbn in H. apply in_map_iff in H as (p & <- & _). unfold crit_first.
        pose proof (cnt_tl crit (map IOp p)). rewrite cnt_ops in H; auto. lia.
      + destruct SH as [SH|[S1 S2]]; auto. right. split; auto.
        intros t H. cbn in H. apply in_map_iff in H as (p & <- & H). apply clr_ops; auto.
    - destruct (IH eq_refl) as [IH1 IH2].
      inversion S as [s ts1 it rest ts2 s' its ls' I]; subst. cbn [snd] in *.
      assert (F: crit_first (it :: rest)) by (apply IH1; apply in_or_app; right; now left).
      unfold crit_first in F. cbn in F.
      destruct (step_first _ _ _ _ _ I) as [A B].
      { destruct IH2 as [H|[H1 H2]]; auto. right. split; auto.
        specialize (H2 (it :: rest)). rewrite cnt_cons in H2.
        destruct (clr it); auto. exfalso. enough (1 + cnt clr rest = 0) by lia. apply H2. apply in_or_app; right; now left. }
      split.
      + intros t H. apply in_app_or in H as [H|[<-|H]].
        * apply IH1. apply in_or_app; auto.
        * unfold crit_first. destruct its as [|x its]; cbn.
          -- pose proof (cnt_tl crit rest). lia.
          -- rewrite cnt_app. cbn in A. lia.
        * apply IH1. apply in_or_app; right; now right.
      + destruct IH2 as [H|[H1 H2]]; auto. destruct B as [B|B]; auto. right. split; auto.
        intros t H. apply in_app_or in H as [H|[<-|H]].
        * apply H2. apply in_or_app; auto.
        * rewrite cnt_app, B. assert (X: cnt clr (it :: rest) = 0) by (apply H2; apply in_or_app; right; now left).
          rewrite cnt_cons in X. lia.
        * apply H2. apply in_or_app; right; now right.
  Qed.

  (** As long as somebody has something to do, some thread can make real progress. *)
  Theorem progress : forall progs tr c, shallow progs -> exec acts cap (c_init progs) tr c -> ~ finished c ->
    exists s ts1 it rest ts2, c = (s, ts1 ++ (it :: rest) :: ts2) /\ spinning s it = false.
  Proof.
    intros progs tr [s ts] SH E NF.
    destruct (exec_inv _ _ _ E) as (atr & a & _ & _ & V). destruct (exec_first _ _ _ SH E) as [F _].
    cbn [fst snd] in *.
    assert (X: exists t, In t ts /\ t <> []).
    { clear - NF. unfold finished in NF. cbn in NF. induction ts as [|[|i r] ts IH].
      - exfalso. apply NF. intros t [].
      - destruct IH as (t & I & N); [|exists t; split; auto; now right].
        intro H. apply NF. intros t [<-|I]; auto.
      - exists (i :: r). split; [now left|discriminate]. }
    destruct (sh_st s) eqn:ST.
    2:{ pose proof (i_crit _ _ _ _ V) as C. unfold want_crit in C. rewrite ST in C.
        assert (Y: exists t, In t ts /\ cnt crit t <> 0).
        { clear - C. induction ts as [|t ts IH]; cbn in C; [discriminate|].
          rewrite cnt_app in C. destruct (Nat.eq_dec (cnt crit t) 0) as [Z|Z].
          - destruct IH as (t' & I & N); [lia|]. exists t'. split; auto. now right.
          - exists t. split; auto. now left. }
        destruct Y as (t & I & N). apply F in I as Ft. destruct t as [|it rest]; [cbn in N; unfold cnt in N; cbn in N; lia|].
        unfold crit_first in Ft. cbn in Ft. rewrite cnt_cons, Ft in N.
        apply in_split in I as (ts1 & ts2 & ->). exists s, ts1, it, rest, ts2. split; auto.
        destruct it; cbn in N; try lia; reflexivity. }
    all: destruct X as ([|it rest] & I & N); [congruence|]; apply in_split in I as (ts1 & ts2 & ->);
      exists s, ts1, it, rest, ts2; split; auto; unfold spinning; rewrite ST; destruct it; auto.
  Qed.
End Exec.

(** Executions counting the steps that are not a failed wait. *)
Inductive exec_n (acts : nat -> list op) (cap : option nat) : config -> nat -> config -> Prop :=
| XNil : forall c, exec_n acts cap c 0 c
| XStep : forall c n s ts1 it rest ts2 s' its ls,
    exec_n acts cap c n (s, ts1 ++ (it :: rest) :: ts2) ->
    istep acts cap s it = (s', its, ls) ->
    exec_n acts cap c ((if spinning s it then 0 else 1) + n) (s', ts1 ++ (its ++ rest) :: ts2).

Lemma flen : forall A (f : A -> bool) l, length (filter f l) <= length l.
Proof. induction l as [|x l IH]; cbn; auto. destruct (f x); cbn; lia. Qed.

Section Term.
  Variable cap : option nat.
  Let acts := fun _ : nat => @nil op.

  Definition is_add (o : op) : bool := match o with OAdd _ => true | _ => false end.
  Definition adds (progs : list (list op)) : nat := length (filter is_add (concat progs)).

  Definition add_pending (it : item) : bool :=
    match it with IOp (OAdd _) | IAddChk _ _ | IAddCas _ _ | IAddPush _ _ => true | _ => false end.

  Variable B : nat.
  Definition weight (it : item) : nat :=
    match it with
    | IOp OClear | IOp ODispose => B + 7
    | IOp (OKill _) => 1
    | IOp _ => 6
    | IAddChk _ _ => 5 | IAddCas _ _ => 4 | IAddPush _ _ => 3 | IAddUnlock _ _ _ => 2
    | IAddLate _ _ => 3 | IAddRet _ _ => 1
    | IRemCas _ _ => 4 | IRemDo _ _ => 3 | IRemUnlock _ _ => 2
    | IClrCas _ | IDspCas _ => B + 6
    | IClrLoop _ i | IDspLoop _ i => (B - i) + 4
    | IClrClear _ | IDspClear _ => 3
    | IClrUnlock _ => 2
    end.
  Fixpoint total (l : list item) : nat :=
    match l with [] => 0 | x :: r => weight x + total r end.
  Lemma total_app : forall x y, total (x ++ y) = total x + total y.
  Proof. induction x; intros; cbn; rewrite ?IHx; lia. Qed.

  Lemma istep_total : forall s it s' its ls, istep acts cap s it = (s', its, ls) ->
    length (sh_kids s) <= B ->
    (if spinning s it then 0 else 1) + total its <= weight it /\
    length (sh_kids s') + cnt add_pending its <= length (sh_kids s) + (if add_pending it then 1 else 0).
  Proof.
    intros s it s' its ls I K.
    destruct it as [o|k d|k d|k d|k d ok|k d|k d|k d|k d|k d|k|k i|k|k|k|k i|k]; cbn [istep] in I; unfold kill, acts in I.
    1:{ destruct o as [d|d| | |d].
        5:{ destruct (memb d (sh_gone s)); inversion I; subst; cbn; rewrite ?cnt_nil; lia. }
        all: inversion I; subst; cbn -[Nat.add]; rewrite ?cnt_cons, ?cnt_nil; cbn -[Nat.add]; lia. }
    all: unfold spinning.
    all: try (destruct (_ || _)); try (destruct (sh_st s) eqn:ST); try (destruct (room cap (sh_kids s)));
         try (destruct (nth_error (sh_kids s) i) as [e|] eqn:NE); try (destruct (memb _ (sh_gone s)));
         inversion I; subst; cbn -[Nat.add Nat.sub]; rewrite ?cnt_cons, ?cnt_nil, ?app_length; cbn -[Nat.add Nat.sub]; rewrite ?ST; try lia.
    all: try (assert (i < length (sh_kids s)) by (apply nth_error_Some; congruence); lia).
    all: try (assert (i < length (sh_kids s')) by (apply nth_error_Some; congruence); lia).
    all: split; try lia.
    all: pose proof (flen _ (fun x => negb (x =? d)) (sh_kids s)); lia.
  Qed.

  Lemma exec_total : forall progs n c, adds progs <= B -> exec_n acts cap (c_init progs) n c ->
    n + total (concat (snd c)) <= total (concat (snd (c_init progs))) /\
    length (sh_kids (fst c)) + cnt add_pending (concat (snd c)) <= B.
  Proof.
    intros progs n c HB E. remember (c_init progs) as c0 eqn:E0.
    induction E as [c|c n s ts1 it rest ts2 s' its ls E IH I]; subst.
    - split; auto. cbn [c_init fst snd sh_kids length].
      replace (cnt add_pending (concat (map (map IOp) progs))) with (adds progs); auto.
      unfold adds. clear. induction progs as [|p progs IH]; auto. cbn.
      rewrite filter_app, app_length, cnt_app, IH. f_equal.
      induction p as [|o p IHp]; auto. cbn. rewrite cnt_cons, <- IHp. destruct o; cbn; auto.
    - destruct (IH eq_refl) as [IH1 IH2]. cbn [fst snd] in *.
      rewrite concat_app in *. cbn [concat] in *. rewrite <- ?app_comm_cons in *.
      rewrite !total_app, !cnt_app in *. cbn [total] in IH1. rewrite cnt_cons in IH2.
      destruct (istep_total _ _ _ _ _ I) as [A C]; [lia|].
      rewrite total_app, !cnt_app in *. destruct (spinning s it), (add_pending it); lia.
  Qed.
End Term.

(** The number of effective steps of all threads together is bounded by the programs
    (children do not touch the composite): every call terminates once no other thread
    holds the Edit state forever. *)
Theorem terminates : forall cap progs, exists bound, forall n c,
  exec_n (fun _ => []) cap (c_init progs) n c -> n <= bound.
Proof.
  intros cap progs. exists (total (adds progs) (concat (snd (c_init progs)))). intros n c E.
  apply exec_total with (B := adds progs) in E; auto. lia.
Qed.
