(** switch_on_next: the previous inner observable is released, and nothing too early. *)
From Verif Require Import Base RelSpec ConcatModel RefModel RefProofs.

Section P.
  Notation op := QSwitch.
  Notation exec := (qexec QSwitch).

  Definition outer (m : qm) : bool := match m with QDrop | QAddRef | QBind _ | QSAdd _ => true | _ => false end.
  Definition ab (m : qm) : bool := match m with QAddRef | QBind _ => true | _ => false end.
  Definition sw (m : qm) : bool :=
    match m with QRel _ | QDDisp | QSDisp | QRDisp _ | QSRem _ | QRAdd _ _ | QAddRef | QSAdd _ | QChk | QDrop | QBind _ => true | _ => false end.
  Definition doomed (s : qs) (i : nat) : Prop :=
    exists r, q_ref s i = Some r /\ (gone s r = true \/ qpend (q_pc s) (QRDisp r)).

  Ltac casex X :=
    match type of X with qexec _ _ _ ?x = _ => destruct x as [?d| | |[?k|]|?k|[?k|] ?d| |?k| | |?r0| | |?r0|[?k|]|?r0|?r0|?r0|?r0|?r0|?r0|?d|] end; cbn [qexec] in X;
      repeat match type of X with
             | (if ?b then _ else _) = _ => let B := fresh "B" in destruct b eqn:B
             | match ?b with None => _ | _ => _ end = _ => let B := fresh "B" in destruct b eqn:B
             | match ?b with SNone => _ | _ => _ end = _ => let B := fresh "B" in destruct b eqn:B
             | match ?b with 0 => _ | _ => _ end = _ => let B := fresh "B" in destruct b eqn:B
             end; injection X as <- <- <-.

  Lemma filter_none : forall (f : qm -> bool) l, (forall m, In m l -> f m = false) -> filter f l = [].
  Proof. induction l as [|x l IH]; intro H; auto. cbn. rewrite (H x (or_introl eq_refl)). apply IH. intros m I. apply H. now right. Qed.

  (** What a step of switch_on_next puts in front. *)
  Lemma sw_new : forall s i x s' l ls, exec s i x = (s', l, ls) -> sw x = true ->
    forallb sw l = true /\ length (filter ab l) <= (if ab x then 1 else 0) /\ ~ In QDrop l /\ (forall m, In m l -> outer m = true -> x = QAddRef).
  Proof.
    intros [p ov st ks cn nr fl rk rf la su sg qu lf lu] i x s' l ls X SW.
    assert (M : forall (a : list nat) f, (forall y, sw (f y) = true /\ ab (f y) = false /\ outer (f y) = false) ->
       forallb sw (map f a) = true /\ filter ab (map f a) = [] /\ ~ In QDrop (map f a) /\ (forall m, In m (map f a) -> outer m = true -> x = QAddRef)).
    { intros a f F. repeat split.
      - apply forallb_forall. intros y I. apply in_map_iff in I as (z & <- & _). apply F.
      - apply filter_none. intros y I. apply in_map_iff in I as (z & <- & _). apply F.
      - intro I. apply in_map_iff in I as (z & E & _). destruct (F z) as (_ & _ & O). rewrite E in O. discriminate.
      - intros y I O. apply in_map_iff in I as (z & <- & _). destruct (F z) as (_ & _ & O'). congruence. }
    casex X; try discriminate SW; try (repeat split; cbn; auto; intuition (subst; discriminate)).
    - destruct (M ks (fun k => QRDisp (Some k))) as (A & B1 & C & D); auto. rewrite B1. auto.
    - destruct (M (rk k) QRel) as (A & B1 & C & D); auto.
      assert (forall c : option nat, forallb sw match c with Some 1 => [QSDisp] | _ => [] end = true /\ filter ab match c with Some 1 => [QSDisp] | _ => [] end = []
         /\ ~ In QDrop match c with Some 1 => [QSDisp] | _ => [] end /\ forall m, In m match c with Some 1 => [QSDisp] | _ => [] end -> outer m = false) as Z.
      { intros [[|[|c]]|]; cbn; intuition (subst; auto; discriminate). }
      destruct (Z cn) as (Z1 & Z2 & Z3 & Z4). cbn. rewrite forallb_app, filter_app, A, B1, Z1, Z2. repeat split; auto.
      + intros [|I]; [discriminate|]. apply in_app_or in I as [I|I]; auto.
      + intros m [<-|I] O; [discriminate|]. apply in_app_or in I as [I|I]; [specialize (Z4 m I); congruence|eauto].
    - destruct st; repeat split; cbn; auto; intuition (subst; discriminate).
  Qed.

  Record WI (s : qs) (tr : list rlab) : Prop := MkWI {
    w_sw : forall k m, In m (q_pc s k) -> sw m = true;
    w_other : forall k m, k <> 0 -> In m (q_pc s k) -> outer m = false;
    w_one : length (filter ab (q_pc s 0)) <= 1;
    w_drop : In QDrop (q_pc s 0) -> q_pc s 0 = [QDrop; QAddRef] /\ In (LNew (S (q_subs s))) tr;
    w_old : forall i, 0 < i < q_subs s -> doomed s i;
    w_last : 0 < q_subs s -> q_ref s (q_subs s) = Some (q_last s);
    w_new : forall j, In (LNew j) tr -> j <= q_subs s \/ j = S (q_subs s) /\ exists m, In m (q_pc s 0) /\ (m = QDrop \/ ab m = true);
    w_cur : forall m, In m (q_pc s 0) -> ab m = true -> In QDrop (q_pc s 0) \/ q_subs s = 0 \/ doomed s (q_subs s);
    w_subs : forall i, q_ref s i <> None -> i <= q_subs s;
    w_zero : q_ref s 0 = Some (Some 0)
  }.

  Lemma WI_begin : forall s tr i l ls, WI s tr -> q_pc s i = [] -> forallb sw l = true ->
    (forall m, In m l -> outer m = true -> i = 0 /\ l = [QDrop; QAddRef] /\ In (LNew (S (q_subs s))) ls) ->
    (forall j, In (LNew j) ls -> i = 0 /\ j = S (q_subs s) /\ In QDrop l) ->
    WI (qwith s i l) (tr ++ ls).
  Proof.
    intros s tr i l ls [H1 H2 H3 H4 H5 H6 H7 H8 H9 HA] PC SW OU NW.
    assert (DM : forall j, doomed s j -> doomed (qwith s i l) j).
    { intros j (r & E & [G|G]); exists r; split; auto. right. now apply qpend_set. }
    assert (P0 : i = 0 \/ q_pc (qwith s i l) 0 = q_pc s 0).
    { destruct (Nat.eq_dec i 0) as [->|N]; auto. right. cbn. now rewrite qset_ne by auto. }
    split; cbn [qwith q_pc q_ref q_subs q_last]; auto.
    - intros k m I. destruct (Nat.eq_dec k i) as [->|N]; [rewrite qset_eq in I; rewrite forallb_forall in SW; auto|rewrite qset_ne in I by auto; eauto].
    - intros k m K I. destruct (Nat.eq_dec k i) as [->|N]; [rewrite qset_eq in I|rewrite qset_ne in I by auto; eauto].
      destruct (outer m) eqn:O; auto. destruct (OU m I O) as (-> & _). contradiction.
    - destruct (Nat.eq_dec i 0) as [->|N]; [rewrite qset_eq|rewrite qset_ne by auto; auto].
      destruct (existsb outer l) eqn:X.
      + apply existsb_exists in X as (m & I & O). destruct (OU m I O) as (_ & -> & _). cbn. auto.
      + rewrite filter_none; auto. intros m I. destruct (ab m) eqn:A; auto. assert (existsb outer l = true) by (apply existsb_exists; exists m; split; auto; destruct m; auto; discriminate). congruence.
    - intro I. destruct (Nat.eq_dec i 0) as [->|N]; [rewrite qset_eq in *|rewrite qset_ne in * by auto].
      + destruct (OU QDrop I eq_refl) as (_ & -> & J). split; auto. apply in_or_app. auto.
      + destruct (H4 I). split; auto. apply in_or_app. auto.
    - intros j I. apply in_app_or in I as [I|I].
      + destruct (H7 j I) as [|(E & m & J & K)]; auto. destruct (Nat.eq_dec i 0) as [->|N]; [rewrite PC in J; destruct J|].
        rewrite qset_ne by auto. right. split; auto. exists m. auto.
      + destruct (NW j I) as (-> & -> & J). rewrite qset_eq. right. split; auto. exists QDrop. auto.
    - intros m I A. destruct (Nat.eq_dec i 0) as [->|N]; [rewrite qset_eq in *|rewrite qset_ne in * by auto].
      + assert (O : outer m = true) by (destruct m; auto; discriminate). destruct (OU m I O) as (_ & -> & _). left. now left.
      + destruct (H8 m I A) as [|[|]]; auto.
  Qed.

  Lemma WI_exec : forall s tr i x r s' l ls, WI s tr -> q_pc s i = x :: r -> exec s i x = (s', l, ls) -> WI (qwith s' i (l ++ r)) (tr ++ ls).
  Proof.
    intros s tr i x r s' l ls [H1 H2 H3 H4 H5 H6 H7 H8 H9 HA] PC X.
    assert (IX : In x (q_pc s i)) by (rewrite PC; now left).
    destruct (sw_new _ _ _ _ _ _ X (H1 _ _ IX)) as (S1 & S2 & S3 & S4).
    destruct (qexec_state _ _ _ _ _ _ _ X H9) as (PP & FL & RF & _ & _ & _ & _ & _ & _ & RD & _ & _ & SB).
    assert (DM : forall j, doomed s j -> doomed (qwith s' i (l ++ r)) j).
    { intros j (r1 & E & G). exists r1. cbn [qwith q_ref q_pc]. split; auto.
      destruct G as [G|G].
      - left. destruct r1; auto. cbn in *. auto.
      - rewrite PP. destruct (qpend_keep _ _ _ _ l _ PC G) as [E1|E1]; auto. left. specialize (RD r1 (eq_sym E1)). destruct r1; auto. }
    assert (IN : forall k m, In m (qset (q_pc s) i (l ++ r) k) -> (k = i /\ In m l) \/ In m (q_pc s k)).
    { intros k m I. destruct (Nat.eq_dec k i) as [->|N]; [rewrite qset_eq in I; apply in_app_or in I as [I|I]; auto; right; rewrite PC; now right|rewrite qset_ne in I by auto; auto]. }
    assert (NN : forall j, ~ In (LNew j) ls).
    { destruct s as [p ov st ks cn nr fl rk rf la su sg qu lf lu]. specialize (H1 _ _ IX). casex X; try discriminate H1; cbn; intros j I; intuition discriminate. }
    assert (SUB : (exists r0, x = QBind r0 /\ q_subs s' = S (q_subs s) /\ q_last s' = r0 /\ q_ref s' (S (q_subs s)) = Some r0 /\ l = []) \/
                  (forall r0, x <> QBind r0) /\ q_subs s' = q_subs s /\ q_last s' = q_last s).
    { clear - X H1 IX. specialize (H1 _ _ IX). destruct s as [p ov st ks cn nr fl rk rf la su sg qu lf lu]. casex X; try discriminate H1; cbn;
        try (right; split; [discriminate|split; reflexivity]).
      left. exists r0. rewrite qset_eq. auto. }
    split; cbn [qwith q_pc q_ref q_subs q_last]; rewrite ?PP; auto.
    - intros k m I. destruct (IN k m I) as [(-> & J)|J]; eauto. rewrite forallb_forall in S1. auto.
    - intros k m K I. destruct (IN k m I) as [(-> & J)|J]; eauto. destruct (outer m) eqn:O; auto.
      assert (E := S4 m J O). subst x. specialize (H2 _ _ K IX). discriminate.
    - destruct (Nat.eq_dec i 0) as [->|N]; [rewrite qset_eq|rewrite qset_ne by auto; auto].
      rewrite filter_app, app_length. rewrite PC in H3. cbn in H3. destruct (ab x); cbn in H3; lia.
    - intro I. destruct (IN 0 _ I) as [(-> & J)|J]; [contradiction|]. destruct (H4 J) as (E & T).
      destruct (Nat.eq_dec i 0) as [->|N].
      + rewrite PC in E. injection E as -> ->. rewrite qset_eq in I. apply in_app_or in I as [I|[I|[]]]; [contradiction|discriminate].
      + rewrite qset_ne by auto. split; auto. apply in_or_app. left.
        destruct SUB as [(r0 & -> & _)|(_ & -> & _)]; auto. specialize (H2 _ _ N IX). discriminate.
    - intros j J. apply DM. destruct SUB as [(r0 & -> & E & _)|(_ & E & _)]; rewrite E in J; auto.
      assert (i = 0) as -> by (destruct (Nat.eq_dec i 0); auto; specialize (H2 _ _ n IX); discriminate).
      destruct (Nat.eq_dec j (q_subs s)) as [->|N]; [|apply H5; lia].
      destruct (H8 _ IX eq_refl) as [D|[D|D]]; auto; [|lia]. destruct (H4 D) as (D1 & _). rewrite PC in D1. discriminate.
    - intro J. destruct SUB as [(r0 & -> & E & E1 & E2 & _)|(_ & E & E1)]; rewrite E, E1; auto. rewrite E in J. auto.
    - intros j I. apply in_app_or in I as [I|I]; [|now contradiction (NN j)].
      destruct (H7 j I) as [J|(-> & m & J & K)]; [left; destruct SUB as [(r0 & _ & -> & _)|(_ & -> & _)]; lia|].
      destruct SUB as [(r0 & -> & E & _)|(NB & E & _)]; rewrite E; [left; lia|]. right. split; auto.
      destruct (Nat.eq_dec i 0) as [->|N]; [|rewrite qset_ne by auto; exists m; auto].
      rewrite qset_eq. rewrite PC in J. destruct J as [<-|J]; [|exists m; split; auto; apply in_or_app; auto].
      destruct K as [->|K].
      + destruct (H4 IX) as (D1 & _). rewrite PC in D1. injection D1 as ->. exists QAddRef. split; [apply in_or_app; right; now left|auto].
      + destruct x; try discriminate; [|now contradiction (NB r0)].
        destruct s as [p ov st ks cn nr fl rk rf la su sg qu lf lu]. cbn [qexec] in X. destruct cn; injection X as <- <- <-.
        * exists (QBind (Some nr)). split; auto. right. now left.
        * exists (QBind None). split; auto. now left.
    - intros m I A.
      destruct (Nat.eq_dec i 0) as [->|N].
      + rewrite qset_eq in *. apply in_app_or in I as [I|I].
        * assert (O : outer m = true) by (destruct m; auto; discriminate). assert (E := S4 m I O). subst x.
          destruct SUB as [(r0 & C & _)|(_ & -> & _)]; [discriminate|].
          destruct (H8 _ IX eq_refl) as [D|[D|D]]; auto. destruct (H4 D) as (D1 & _). rewrite PC in D1. discriminate.
        * assert (IM : In m (q_pc s 0)) by (rewrite PC; now right).
          destruct SUB as [(r0 & -> & _)|(NB & E & _)].
          { exfalso. rewrite PC in H3. cbn in H3. assert (In m (filter ab r)) by (apply filter_In; auto). destruct (filter ab r); [destruct H|cbn in H3; lia]. }
          rewrite E. destruct (H8 m IM A) as [D|[D|D]]; auto. destruct (H4 D) as (D1 & _). rewrite PC in D1. injection D1 as -> ->.
          destruct s as [p ov st ks cn nr fl rk rf la su sg qu lf lu]. cbn [qexec] in X. injection X as <- <- <-. cbn in *.
          destruct (Nat.eq_dec su 0) as [|Z]; auto. right. right. exists la. split; [apply H6; lia|]. right. exists 0. cbn. now left.
      + rewrite qset_ne in * by auto. destruct SUB as [(r0 & -> & _)|(NB & E & _)]; [specialize (H2 _ _ N IX); discriminate|].
        rewrite E. destruct (H8 m I A) as [D|[D|D]]; auto.
  Qed.

  Lemma qrun_WI : forall ms s tr, qrun op q_init ms = (s, tr) -> WI s tr.
  Proof.
    enough (H : forall ms s' tr, qrun op q_init ms = (s', tr) -> WI s' ([] ++ tr)) by exact H.
    intros ms s' tr E. revert E. eapply (qrun_inv op WI).
    - intros s tr0 i d r H PC RF. apply WI_begin; auto.
      + destruct (qgate op s i r); reflexivity.
      + intros m I O. destruct (qgate op s i r); cbn in I; destruct I as [<-|[]]; discriminate.
      + intros j [|[]]. discriminate.
    - intros s tr0 i H PC. rewrite <- (app_nil_r tr0). apply WI_begin; auto; cbn; intuition (subst; discriminate).
    - intros s tr0 i r c H PC RF G N1 N2. apply WI_begin; auto.
      + destruct c; cbn; auto; try (destruct (ends && _)%bool; reflexivity); destruct (i =? 0); reflexivity.
      + intros m I O. destruct c; cbn in I; try (now contradiction (N1 d)); try (destruct (ends && _)%bool; cbn in I; intuition (subst; discriminate)); try (intuition (subst; discriminate)).
        cbn. destruct (Nat.eqb_spec i 0) as [->|N]; [|destruct I]. repeat split; auto. now left.
      + intros j I. destruct c; cbn in I; try (intuition discriminate). cbn. destruct (Nat.eqb_spec i 0) as [->|N]; [|destruct I].
        destruct I as [[= <-]|[]]. repeat split; auto. now left.
    - intros. eapply WI_exec; eauto.
    - split; cbn; try tauto; try lia; auto.
      intros i. destruct (Nat.eqb_spec i 0) as [->|N]; [lia|]. congruence.
  Qed.

  Lemma q_replaced_released : forall ms s tr i j, qrun op q_init ms = (s, tr) -> qquiet s -> In (LNew j) tr -> 0 < i < j -> released tr i.
  Proof.
    intros ms s tr i j E Q T L. pose proof (qrun_RI _ _ _ _ E) as H. pose proof (qrun_WI _ _ _ E) as H'.
    destruct (w_new _ _ H' j T) as [J|(_ & m & I & _)]; [|rewrite Q in I; destruct I].
    destruct (w_old _ _ H' i) as (r & RF & [G|G]); [lia| |now contradiction (quiet_no _ _ Q G)].
    eapply q_gone_rel; eauto.
  Qed.

  (** ** Nothing is released too early *)
  Definition finr (s : qs) (tr : list rlab) (k : nat) : Prop :=
    In LOver tr \/ ((forall i, q_ref s i = Some (Some k) -> finished_or_replaced tr i) /\ ~ qpend (q_pc s) (QBind (Some k))).
  Definition live (s : qs) : nat := length (filter (fun k => negb (q_flag s k)) (seq 0 (q_nref s))).

  Record NI (s : qs) (tr : list rlab) : Prop := MkNI {
    n_rel : forall d, In (LRel d) tr \/ qpend (q_pc s) (QRel d) -> exists i, In (LUp i d) tr /\ (In LOver tr \/ finished_or_replaced tr i);
    n_rk : forall k d, In d (q_rk s k) -> exists i, In (LUp i d) tr /\ q_ref s i = Some (Some k);
    n_add : forall r d, qpend (q_pc s) (QRAdd r d) -> exists i, In (LUp i d) tr /\ q_ref s i = Some r;
    n_fl : forall k, q_flag s k = true \/ qpend (q_pc s) (QRDisp (Some k)) -> finr s tr k;
    n_none : forall i, q_ref s i = Some None -> In LOver tr;
    n_bnone : qpend (q_pc s) (QBind None) -> In LOver tr;
    n_cnone : q_cnt s = None -> In LOver tr \/ forall k, k < q_nref s -> q_flag s k = true;
    n_st : q_st s = true \/ qpend (q_pc s) QSDisp -> In LOver tr \/ q_cnt s = None;
    n_cnt : forall n, q_cnt s = Some n -> n = live s;
    n_end : In (LTerm 0) tr -> In LOver tr \/ (forall m, In m (q_pc s 0) -> outer m = false) /\
              (q_flag s 0 = true \/ In (QRDisp (Some 0)) (q_pc s 0) \/ In QDDisp (q_pc s 0));
    n_ov : q_over s = true -> In LOver tr;
    n_inj : forall i j k, q_ref s i = Some (Some k) -> q_ref s j = Some (Some k) -> i = j;
    n_bind : forall k, qpend (q_pc s) (QBind (Some k)) -> k <> 0 /\ forall i, q_ref s i <> Some (Some k);
    n_last : q_last s <> Some 0;
    n_new : forall k, q_nref s <= k -> q_flag s k = false;
    n_pos : 0 < q_nref s
  }.

  Lemma for_app : forall tr a i, finished_or_replaced tr i -> finished_or_replaced (tr ++ a) i.
  Proof. intros tr a i [H|(H & j & L & J)]; [left|right; split; auto; exists j; split; auto]; apply in_or_app; auto. Qed.
  Lemma inl_app : forall (x : rlab) tr a, In x tr -> In x (tr ++ a).
  Proof. intros. apply in_or_app. auto. Qed.
  Hint Resolve for_app inl_app : core.

  Lemma NI_begin : forall s tr i l ls, NI s tr -> q_pc s i = [] ->
    (forall d, ~ In (LRel d) ls) ->
    (forall d, In (QRel d) l -> exists i, In (LUp i d) (tr ++ ls) /\ (In LOver tr \/ finished_or_replaced (tr ++ ls) i)) ->
    (forall r d, In (QRAdd r d) l -> exists i, In (LUp i d) (tr ++ ls) /\ q_ref s i = Some r) ->
    (forall r, ~ In (QBind r) l) ->
    (forall k, In (QRDisp (Some k)) l -> forall i, q_ref s i = Some (Some k) -> finished_or_replaced (tr ++ ls) i) ->
    (forall k, In (QRDisp (Some k)) l -> exists i, q_ref s i = Some (Some k)) ->
    ~ In QSDisp l ->
    (In (LTerm 0) (tr ++ ls) -> i = 0 -> In LOver tr \/ (forall m, In m l -> outer m = false) /\ (q_flag s 0 = true \/ In (QRDisp (Some 0)) l \/ In QDDisp l)) ->
    (In (LTerm 0) ls -> i = 0) ->
    NI (qwith s i l) (tr ++ ls).
  Proof.
    intros s tr i l ls [H1 H2 H3 H4 H5 H6 H7 H8 H9 HA HB HC HD HE HF HG] PC NR RL AD NB DS DE NS T0 T1.
    assert (PU : forall m, qpend (q_pc (qwith s i l)) m -> In m l \/ qpend (q_pc s) m) by (intros m; apply qpend_unset).
    assert (FR : forall k, finr s tr k -> finr (qwith s i l) (tr ++ ls) k).
    { intros k [O|(A & B)]; [left; auto|right]. split; [auto|]. intro P. destruct (PU _ P) as [P1|P1]; [now apply NB in P1|auto]. }
    split; cbn [qwith q_pc q_ref q_last q_flag q_rk q_cnt q_nref q_over q_st]; auto.
    - intros d [I|P].
      + apply in_app_or in I as [I|I]; [|now apply NR in I]. destruct (H1 d (or_introl I)) as (j & J & [O|O]); exists j; auto.
      + destruct (PU _ P) as [I|I]; [destruct (RL d I) as (j & J & [O|O]); exists j; auto|].
        destruct (H1 d (or_intror I)) as (j & J & [O|O]); exists j; auto.
    - intros k d I. destruct (H2 k d I) as (j & J & E). exists j. auto.
    - intros r d P. destruct (PU _ P) as [I|I]; [auto|]. destruct (H3 r d I) as (j & J & E). exists j. auto.
    - intros k [I|P]; [auto|]. destruct (PU _ P) as [I|I]; auto. right. cbn [qwith q_ref]. split; [eauto|].
      intro P'. destruct (PU _ P') as [J|J]; [now apply NB in J|]. destruct (DE k I) as (j & J'). destruct (HD _ J) as (_ & NN). now apply (NN j).
    - intros j E. apply inl_app. eauto.
    - intro P. destruct (PU _ P) as [I|I]; [now apply NB in I|auto].
    - intro E. destruct (H7 E); auto.
    - intros [E|P]; [destruct (H8 (or_introl E)); auto|]. destruct (PU _ P) as [I|I]; [contradiction|]. destruct (H8 (or_intror I)); auto.
    - intros I. destruct (Nat.eq_dec i 0) as [->|N]; [rewrite qset_eq|rewrite qset_ne by auto].
      + destruct (T0 I eq_refl) as [O|O]; auto.
      + apply in_app_or in I as [I|I]; [|now apply T1 in I]. destruct (HA I) as [O|O]; auto.
    - intros k P. destruct (PU _ P) as [I|I]; [now apply NB in I|auto].
  Qed.

  Lemma live_set : forall fl k n, k < n -> fl k = false ->
    S (length (filter (fun j => negb (qset fl k true j)) (seq 0 n))) = length (filter (fun j => negb (fl j)) (seq 0 n)).
  Proof.
    intros fl k n L F. induction n as [|n IH]; [lia|]. rewrite seq_S, !filter_app, !app_length. cbn [plus filter].
    destruct (Nat.eq_dec k n) as [->|N].
    - rewrite qset_eq, F. cbn. rewrite !Nat.add_0_r.
      rewrite (filter_ext_in (fun j => negb (qset fl n true j)) (fun j => negb (fl j))); [lia|].
      intros j J. apply in_seq in J. now rewrite qset_ne by lia.
    - rewrite qset_ne by auto. specialize (IH ltac:(lia)). destruct (fl n); cbn; lia.
  Qed.
  Lemma live_zero : forall (fl : nat -> bool) n, length (filter (fun j => negb (fl j)) (seq 0 n)) = 0 -> forall k, k < n -> fl k = true.
  Proof.
    intros fl n Z k L. destruct (fl k) eqn:F; auto.
    assert (In k (filter (fun j => negb (fl j)) (seq 0 n))) by (apply filter_In; rewrite F; split; auto; apply in_seq; lia).
    destruct (filter _ _); [destruct H|discriminate].
  Qed.

  Lemma NI_exec : forall s tr i x r s' l ls, RI s tr -> WI s tr -> NI s tr -> q_pc s i = x :: r -> exec s i x = (s', l, ls) -> NI (qwith s' i (l ++ r)) (tr ++ ls).
  Proof.
    intros s tr i x r s' l ls RR WW [H1 H2 H3 H4 H5 H6 H7 H8 H9 HA HB HC HD HE HF HG] PC X.
    assert (IX : In x (q_pc s i)) by (rewrite PC; now left).
    assert (PX : qpend (q_pc s) x) by (now exists i).
    assert (SX := w_sw _ _ WW _ _ IX).
    assert (OX : outer x = true -> i = 0).
    { intro O. destruct (Nat.eq_dec i 0); auto. rewrite (w_other _ _ WW _ _ n IX) in O. discriminate. }
    assert (PB : forall m, qpend (qset (q_pc s) i (l ++ r)) m -> In m l \/ qpend (q_pc s) m) by (intros m P; eapply qpend_back; eauto).
    assert (ON : forall m, In m l -> outer m = true -> x = QAddRef) by (apply (sw_new _ _ _ _ _ _ X SX)).
    assert (KO : In (LTerm 0) tr -> In LOver tr \/ (forall m, In m (q_pc s 0) -> outer m = false)) by (intro T; destruct (HA T) as [|(? & _)]; auto).
    (* the state of the outer source, for every kind of step *)
    assert (END : In (LTerm 0) tr -> In LOver (tr ++ ls) \/ (forall m, In m (qset (q_pc s) i (l ++ r) 0) -> outer m = false) /\
              (q_flag s' 0 = true \/ In (QRDisp (Some 0)) (qset (q_pc s) i (l ++ r) 0) \/ In QDDisp (qset (q_pc s) i (l ++ r) 0))).
    { intro T. destruct (HA T) as [O|(O & E)]; [auto|].
      destruct (qexec_state _ _ _ _ _ _ _ X (w_subs _ _ WW)) as (_ & FL & _ & _ & _ & _ & _ & _ & _ & RD & _).
      assert (OO : forall m, In m (qset (q_pc s) i (l ++ r) 0) -> outer m = false).
      { intros m I. destruct (Nat.eq_dec i 0) as [->|N]; [rewrite qset_eq in I|rewrite qset_ne in I by auto; auto].
        apply in_app_or in I as [I|I]; [|apply O; rewrite PC; now right]. destruct (outer m) eqn:Z; auto. pose proof (ON m I Z) as Z1. subst x. specialize (OX eq_refl). specialize (O _ IX). discriminate O. }
      destruct E as [E|[E|E]]; [right; auto| |].
      - destruct (Nat.eq_dec i 0) as [->|N]; [|right; split; auto; right; left; rewrite qset_ne by auto; auto].
        rewrite PC in E. destruct E as [->|E]; [right; split; auto; left; exact (RD (Some 0) eq_refl)|].
        right. split; auto. right. left. rewrite qset_eq. apply in_or_app. auto.
      - destruct (Nat.eq_dec i 0) as [->|N]; [|right; split; auto; right; right; rewrite qset_ne by auto; auto].
        rewrite PC in E. destruct E as [->|E].
        + left. destruct s as [p ov st ks cn nr fl rk rf la su sg qu lf lu]. cbn [qexec] in X. destruct ov; injection X as <- <- <-; [apply inl_app; auto|apply in_or_app; right; now left].
        + right. split; auto. right. right. rewrite qset_eq. apply in_or_app. auto. }
    destruct s as [p ov st ks cn nr fl rk rf la su sg qu lf lu].
    cbn [q_pc q_ref q_last q_flag q_rk q_cnt q_nref q_over q_st q_subs] in *. unfold live in H9. cbn [q_nref q_flag] in H9.
    assert (FR : forall k fl' rk' ov' st' ks' cn' nr' la' su', (forall m, In m l -> ab m = false) -> finr (QS p ov st ks cn nr fl rk rf la su sg qu lf lu) tr k ->
       finr (qwith (QS p ov' st' ks' cn' nr' fl' rk' rf la' su' sg qu lf lu) i (l ++ r)) (tr ++ ls) k).
    { intros k fl' rk' ov' st' ks' cn' nr' la' su' NA [O|(A & B)]; [left; auto|right]. cbn [q_ref q_pc qwith] in *. split; [auto|].
      intro P. destruct (PB _ P) as [I|I]; [now apply NA in I|auto]. }
    assert (HR : forall d0, In (LRel d0) tr \/ qpend p (QRel d0) -> exists i0, In (LUp i0 d0) (tr ++ ls) /\ (In LOver (tr ++ ls) \/ finished_or_replaced (tr ++ ls) i0)).
    { intros d0 D. destruct (H1 d0 D) as (j & J1 & [J2|J2]); exists j; auto. }
    assert (HQ : forall r1 d1, qpend p (QRAdd r1 d1) -> exists i0, In (LUp i0 d1) (tr ++ ls) /\ rf i0 = Some r1).
    { intros r1 d1 P. destruct (H3 r1 d1 P) as (j & J1 & J2); exists j; auto. }
    assert (IM1 : forall m a, In m (map (fun k => QRDisp (Some k)) a) -> exists k, m = QRDisp (Some k) /\ In k a).
    { intros m a I. apply in_map_iff in I as (k & <- & I). eauto. }
    assert (IM2 : forall m k, In m (QSRem k :: match cn with Some 1 => [QSDisp] | _ => [] end ++ map QRel (rk k)) ->
                    m = QSRem k \/ m = QSDisp /\ cn = Some 1 \/ exists d, m = QRel d /\ In d (rk k)).
    { intros m k [<-|I]; auto. right. apply in_app_or in I as [I|I].
      - left. destruct cn as [[|[|]]|]; cbn in I; intuition.
      - right. apply in_map_iff in I as (d & <- & I). eauto. }
    casex X; try discriminate SX; try match goal with PC : _ = QChk :: _ |- _ => destruct st end; unfold live; cbn [qwith q_pc q_ref q_last q_flag q_rk q_cnt q_nref q_over q_st q_subs] in *.
    all: idtac.
    all: split; unfold live; cbn [qwith q_pc q_ref q_last q_flag q_rk q_cnt q_nref q_over q_st q_subs]; try exact HE; try exact HF; try exact HG; try exact HC; try assumption.
    all: try (rewrite ?app_nil_r; assumption).
    all: try (intros T; apply in_app_or in T as [T|T]; [exact (END T)|cbn in T; intuition discriminate]).
    all: try (intros; apply inl_app; eauto; fail).
    all: try (intros k0 d0 I; destruct (H2 k0 d0 I) as (j & J1 & J2); exists j; auto; fail).
    all: try (intros r1 d1 P; destruct (PB _ P) as [I|I]; [cbn in I; intuition discriminate|destruct (H3 r1 d1 I) as (j & J1 & J2); exists j; auto]; fail).
    all: try (intro P; destruct (PB _ P) as [I|I]; [cbn in I; intuition discriminate|auto]; fail).
    all: try (intros k0 P; destruct (PB _ P) as [I|I]; [cbn in I; intuition discriminate|auto]; fail).
    all: try (intros E; destruct (H7 E); auto; fail).
    all: try (intros [E|P]; [destruct (H8 (or_introl E)); auto|destruct (PB _ P) as [I|I]; [cbn in I; intuition discriminate|destruct (H8 (or_intror I)); auto]]; fail).
    all: try (intros k0 [I|P]; [apply FR; [cbn; intuition (subst; auto)|auto]|destruct (PB _ P) as [I|I]; [cbn in I; intuition discriminate|apply FR; [cbn; intuition (subst; auto)|auto]]]; fail).
    all: try (intros d0 [I|P]; [apply in_app_or in I as [I|I]; [destruct (H1 d0 (or_introl I)) as (j & J1 & [J2|J2]); exists j; auto|cbn in I; intuition discriminate]|
              destruct (PB _ P) as [I|I]; [cbn in I; intuition discriminate|destruct (H1 d0 (or_intror I)) as (j & J1 & [J2|J2]); exists j; auto]]; fail).
    all: try (intros; apply in_or_app; right; now left).
    - intros d0 [I|P]; [apply in_app_or in I as [I|[[= <-]|[]]]; auto|destruct (PB _ P) as [I|I]; [destruct I|auto]].
    - intros _. left. apply in_or_app. right. now left.
    - intros d [I|P]; [apply in_app_or in I as [I|[]]; auto|destruct (PB _ P) as [I|I]; auto]. apply IM1 in I as (k & C & _). discriminate.
    - intros r0 d P. destruct (PB _ P) as [I|I]; auto. apply IM1 in I as (k & C & _). discriminate.
    - assert (NA : forall m, In m (map (fun k => QRDisp (Some k)) ks) -> ab m = false) by (intros m I; apply IM1 in I as (k & -> & _); auto).
      intros k [I|P]; [auto|destruct (PB _ P) as [I|I]; auto]. apply IM1 in I as (k' & [= <-] & I).
      destruct (H8 (or_intror PX)) as [O|O]; [left; auto|]. destruct (H7 O) as [O1|O1]; [left; auto|].
      apply FR; auto. apply H4. left. apply O1. exact (r_kids _ _ RR k I).
    - intro P. destruct (PB _ P) as [I|I]; auto. apply IM1 in I as (k & C & _). discriminate.
    - intros _. destruct (H8 (or_intror PX)) as [O|O]; auto. destruct (H7 O) as [O1|O1]; auto.
    - auto.
    - discriminate.
    - intros k P. destruct (PB _ P) as [I|I]; auto. apply IM1 in I as (k' & C & _). discriminate.
    - intros d [I|P]; [apply in_app_or in I as [I|[]]; auto|destruct (PB _ P) as [I|I]; auto].
      apply IM2 in I as [C|[(C & _)|(d' & [= <-] & I)]]; try discriminate.
      destruct (H2 k d I) as (j & J1 & J2). exists j. split; auto. destruct (H4 k (or_intror PX)) as [O|(O & _)]; auto.
    - intros k0 d I. destruct (Nat.eq_dec k0 k) as [->|N]; [rewrite qset_eq in I; destruct I|rewrite qset_ne in I by auto].
      destruct (H2 k0 d I) as (j & J1 & J2). exists j. auto.
    - intros r0 d P. destruct (PB _ P) as [I|I]; auto. apply IM2 in I as [C|[(C & _)|(d' & C & I)]]; discriminate.
    - intros k0 K. apply FR.
      + intros m I. apply IM2 in I as [->|[(-> & _)|(d' & -> & I)]]; auto.
      + apply H4. destruct K as [K|P].
        * destruct (Nat.eq_dec k0 k) as [->|N]; [right; exact PX|rewrite qset_ne in K by auto; auto].
        * destruct (PB _ P) as [I|I]; auto. apply IM2 in I as [C|[(C & _)|(d' & C & I)]]; discriminate.
    - intro P. destruct (PB _ P) as [I|I]; auto. apply IM2 in I as [C|[(C & _)|(d' & C & I)]]; discriminate.
    - intro C. assert (K := r_mref _ _ RR _ k PX eq_refl). cbn in K. pose proof (live_set fl k nr K B) as LS.
      destruct cn as [[|[|n]]|]; try discriminate.
      + specialize (H9 _ eq_refl). lia.
      + specialize (H9 _ eq_refl). right. apply live_zero. lia.
      + destruct (H7 eq_refl) as [O|O]; auto. rewrite (O k K) in B. discriminate.
    - intros [E|P].
      + destruct (H8 (or_introl E)) as [O|O]; auto. rewrite O. auto.
      + destruct (PB _ P) as [I|I].
        * apply IM2 in I as [C|[(_ & C)|(d' & C & I)]]; try discriminate. rewrite C. auto.
        * destruct (H8 (or_intror I)) as [O|O]; auto. rewrite O. auto.
    - intros n C. assert (K := r_mref _ _ RR _ k PX eq_refl). cbn in K. pose proof (live_set fl k nr K B) as LS.
      destruct cn as [[|[|n']]|]; try discriminate. injection C as <-. specialize (H9 _ eq_refl). lia.
    - intros k0 P. destruct (PB _ P) as [I|I]; auto. apply IM2 in I as [C|[(C & _)|(d' & C & I)]]; discriminate.
    - intros k0 K. assert (K1 := r_mref _ _ RR _ k PX eq_refl). cbn in K1. rewrite qset_ne by lia. auto.
    - intros d0 [I|P]; [apply in_app_or in I as [I|[]]; auto|destruct (PB _ P) as [[[= <-]|[]]|I]; auto].
      destruct (H3 _ _ PX) as (j & J1 & J2). exists j. split; auto. destruct (H4 k (or_introl B)) as [O|(O & _)]; auto.
    - intros k0 d0 I. destruct (Nat.eq_dec k0 k) as [->|N]; [rewrite qset_eq in I; apply in_app_or in I as [I|[<-|[]]]|rewrite qset_ne in I by auto].
      + destruct (H2 k d0 I) as (j & J1 & J2). exists j. auto.
      + destruct (H3 _ _ PX) as (j & J1 & J2). exists j. auto.
      + destruct (H2 k0 d0 I) as (j & J1 & J2). exists j. auto.
    - intros d0 [I|P]; [apply in_app_or in I as [I|[]]; auto|destruct (PB _ P) as [[[= <-]|[]]|I]; auto].
      destruct (H3 _ _ PX) as (j & J1 & J2). exists j. split; auto. left. apply inl_app. eauto.
    - intros k K. assert (KN : k <> nr).
      { destruct K as [K|P]; [intros ->; rewrite HF in K by auto; discriminate|]. destruct (PB _ P) as [[C|[C|[]]]|I]; try discriminate.
        assert (Z := r_mref _ _ RR _ k I eq_refl). cbn in Z. lia. }
      assert (F0 : finr (QS p ov st ks (Some n) nr fl rk rf la su sg qu lf lu) tr k).
      { apply H4. destruct K as [K|P]; auto. destruct (PB _ P) as [[C|[C|[]]]|I]; auto; discriminate. }
      destruct F0 as [O|(O & O')]; [left; auto|right]. cbn [q_ref q_pc qwith] in *. split; auto.
      intro P. destruct (PB _ P) as [[C|[C|[]]]|I]; auto; try discriminate. injection C as C. congruence.
    - discriminate.
    - intros [E|P]; [destruct (H8 (or_introl E)); auto; discriminate|].
      destruct (PB _ P) as [[C|[C|[]]]|I]; try discriminate. destruct (H8 (or_intror I)); auto; discriminate.
    - intros n0 [= <-]. rewrite seq_S, filter_app, app_length. cbn [plus filter]. rewrite (HF nr (le_n _)). cbn. rewrite <- (H9 _ eq_refl). lia.
    - intros k P. destruct (PB _ P) as [[C|[C|[]]]|I]; auto; try discriminate. injection C as <-. split; [lia|].
      intros j C. assert (Z := r_ref _ _ RR j nr C). cbn in Z. lia.
    - intros k K. apply HF. lia.
    - lia.
    - assert (O : In LOver tr).
      { destruct (H7 eq_refl) as [O|O]; auto. destruct (H4 0 (or_introl (O 0 HG))) as [O1|(O1 & _)]; auto.
        destruct (O1 0 (w_zero _ _ WW)) as [T|(C & _)]; [|lia]. destruct (KO T) as [O2|O2]; auto.
        assert (i = 0) as -> by (apply OX; auto). specialize (O2 _ IX). discriminate. }
      intros k _. left. auto.
    - assert (O : In LOver tr).
      { destruct (H7 eq_refl) as [O|O]; auto. destruct (H4 0 (or_introl (O 0 HG))) as [O1|(O1 & _)]; auto.
        destruct (O1 0 (w_zero _ _ WW)) as [T|(C & _)]; [|lia]. destruct (KO T) as [O2|O2]; auto.
        assert (i = 0) as -> by (apply OX; auto). specialize (O2 _ IX). discriminate. }
      auto.
    - intros k0 K. assert (NA : forall m, In m [QRDisp (Some k)] -> ab m = false) by (intros m [<-|[]]; auto).
      destruct K as [K|P]; [auto|]. destruct (PB _ P) as [[[= <-]|[]]|I]; auto.
      destruct (H8 (or_introl eq_refl)) as [O|O]; [left; auto|]. destruct (H7 O) as [O1|O1]; [left; auto|].
      rewrite O1 in B; [discriminate|]. exact (r_mref _ _ RR _ k PX eq_refl).
    - assert (NA : forall m, In m [QRDisp la] -> ab m = false) by (intros m [<-|[]]; auto).
      intros k [K|P]; [auto|]. destruct (PB _ P) as [[[= ->]|[]]|I]; auto.
      assert (i = 0) as -> by (apply OX; auto). destruct (w_drop _ _ WW IX) as (DR & LN). cbn in DR, LN.
      right. cbn [q_ref q_pc qwith]. split.
      + intros j J. right. split.
        * destruct j; [|lia]. assert (Z := w_zero _ _ WW). cbn in Z. congruence.
        * exists (S su). split; auto. assert (Z := w_subs _ _ WW j). cbn in Z. rewrite J in Z. specialize (Z ltac:(discriminate)). lia.
      + intro P'. destruct (PB _ P') as [[C|[]]|(k' & I)]; [discriminate|].
        destruct (Nat.eq_dec k' 0) as [->|N]; [rewrite DR in I; destruct I as [|[|[]]]; discriminate|].
        assert (Z := w_other _ _ WW _ _ N I). discriminate.
    - intros k d I. destruct (H2 k d I) as (j & J1 & J2). exists j. split; auto. rewrite qset_ne; auto.
      intros ->. assert (Z := w_subs _ _ WW (S su)). cbn in Z. rewrite J2 in Z. specialize (Z ltac:(discriminate)). lia.
    - intros r1 d P. destruct (PB _ P) as [[]|I]. destruct (H3 _ _ I) as (j & J1 & J2). exists j. split; auto. rewrite qset_ne; auto.
      intros ->. assert (Z := w_subs _ _ WW (S su)). cbn in Z. rewrite J2 in Z. specialize (Z ltac:(discriminate)). lia.
    - intros k K. assert (F0 : finr (QS p ov st ks cn nr fl rk rf la su sg qu lf lu) tr k).
      { apply H4. destruct K as [K|P]; auto. destruct (PB _ P) as [[]|I]; auto. }
      destruct F0 as [O|(O & O')]; [left; auto|right]. cbn [q_ref q_pc qwith] in *. split.
      + intros j J. destruct (Nat.eq_dec j (S su)) as [->|N]; [rewrite qset_eq in J|rewrite qset_ne in J by auto; auto].
        injection J as ->. contradiction.
      + intro P. destruct (PB _ P) as [[]|I]. auto.
    - intros j J. apply inl_app. destruct (Nat.eq_dec j (S su)) as [->|N]; [rewrite qset_eq in J|rewrite qset_ne in J by auto; eauto].
      injection J as ->. auto.
    - assert (NB : forall j k, r0 = Some k -> rf j <> Some (Some k)) by (intros j k ->; apply (HD k PX)).
      intros a b k A1 B1. destruct (Nat.eq_dec a (S su)) as [->|Na], (Nat.eq_dec b (S su)) as [->|Nb]; auto.
      + rewrite qset_eq in A1. rewrite qset_ne in B1 by auto. injection A1 as ->. now contradiction (NB b k eq_refl).
      + rewrite qset_eq in B1. rewrite qset_ne in A1 by auto. injection B1 as ->. now contradiction (NB a k eq_refl).
      + rewrite qset_ne in A1, B1 by auto. eauto.
    - intros k P. exfalso. destruct P as (k' & I). assert (i = 0) as -> by (apply OX; auto).
      destruct (Nat.eq_dec k' 0) as [->|N].
      + rewrite qset_eq in I. assert (Z := w_one _ _ WW). cbn in Z. rewrite PC in Z. cbn in Z.
        assert (J : In (QBind (Some k)) (filter ab r)) by (apply filter_In; auto). destruct (filter ab r); [destruct J|cbn in Z; lia].
      + rewrite qset_ne in I by auto. assert (Z := w_other _ _ WW _ _ N I). discriminate.
    - intros ->. now apply (HD 0 PX).
  Qed.

  Definition reach (s : qs) (tr : list rlab) : Prop := exists ms, qrun op q_init ms = (s, tr).
  Lemma qrun_app : forall a s b, qrun op s (a ++ b) = (let '(s1, x) := qrun op s a in let '(s2, y) := qrun op s1 b in (s2, x ++ y)).
  Proof.
    induction a as [|m a IH]; intros s b; cbn [qrun app].
    - now destruct (qrun op s b).
    - destruct (qstep op s m) as [s1 x]. rewrite IH. destruct (qrun op s1 a) as [s2 y]. destruct (qrun op s2 b) as [s3 z]. now rewrite app_assoc.
  Qed.
  Lemma reach_step : forall s tr m s' a, reach s tr -> qstep op s m = (s', a) -> reach s' (tr ++ a).
  Proof. intros s tr m s' a (ms & E) H. exists (ms ++ [m]). rewrite qrun_app, E. cbn [qrun]. rewrite H. now rewrite app_nil_r. Qed.

  Lemma qrun_NI : forall ms s tr, qrun op q_init ms = (s, tr) -> NI s tr.
  Proof.
    enough (H : forall ms s' tr, qrun op q_init ms = (s', tr) -> reach s' ([] ++ tr) /\ NI s' ([] ++ tr)) by (intros ms s tr E; apply (H ms s tr E)).
    intros ms s' tr E. revert E. eapply (qrun_inv op (fun s tr => reach s tr /\ NI s tr)).
    - intros s tr0 i d r (R & H) PC RF. split.
      { eapply reach_step with (m := QBegin i (UUp d)); eauto. cbn [qstep]. unfold qbegin. now rewrite PC, RF. }
      pose proof H as [H1 H2 H3 H4 H5 H6 H7 H8 H9 HA HB HC HD HE HF HG].
      assert (LU : In (LUp i d) (tr0 ++ [LUp i d])) by (apply in_or_app; right; now left).
      apply NI_begin; auto.
      + intros d0 [|[]]. discriminate.
      + intros d0 I. unfold qgate in I. cbn [qowns andb orb] in I. destruct (gone s r) eqn:G; cbn in I; destruct I as [[= <-]|[]]; try discriminate.
        exists i. split; auto. destruct r as [k|]; [|left; eauto]. destruct (H4 k (or_introl G)) as [O|(O & _)]; auto.
      + intros r0 d0 I. destruct (qgate op s i r); cbn in I; destruct I as [[= <- <-]|[]]. exists i. auto.
      + intros r0 I. destruct (qgate op s i r); cbn in I; destruct I as [|[]]; discriminate.
      + intros k I. destruct (qgate op s i r); cbn in I; destruct I as [|[]]; discriminate.
      + intros k I. destruct (qgate op s i r); cbn in I; destruct I as [|[]]; discriminate.
      + intros I. destruct (qgate op s i r); cbn in I; destruct I as [|[]]; discriminate.
      + intros T ->. apply in_app_or in T as [T|[|[]]]; [|discriminate]. destruct (HA T) as [O|(_ & O)]; auto. right. split.
        * intros m I. destruct (qgate op s 0 r); cbn in I; destruct I as [<-|[]]; auto.
        * rewrite PC in O. destruct O as [O|[[]|[]]]; auto.
      + intros [|[]]. discriminate.
    - intros s tr0 i (R & H) PC.
      pose proof H as [H1 H2 H3 H4 H5 H6 H7 H8 H9 HA HB HC HD HE HF HG].
      rewrite <- (app_nil_r tr0). split.
      { eapply reach_step with (m := QBegin i UDisp); eauto. cbn [qstep]. unfold qbegin. now rewrite PC. }
      apply NI_begin; auto; cbn; try (intuition discriminate).
      intros T ->. right. split; auto. intros m [<-|[]]. auto.
    - intros s tr0 i r c (R & H) PC RF G N1 N2. split.
      { eapply reach_step with (m := QBegin i c); eauto. cbn [qstep]. unfold qbegin. rewrite PC, RF, G. destruct c; auto; first [now contradiction (N1 d)|now contradiction N2]. }
      pose proof H as [H1 H2 H3 H4 H5 H6 H7 H8 H9 HA HB HC HD HE HF HG].
      assert (TE : In (LTerm 0) tr0 -> i = 0 -> In LOver tr0).
      { intros T ->. destruct (HA T) as [O|(_ & O)]; auto. exfalso. rewrite PC in O. destruct O as [O|[[]|[]]].
        destruct R as (ms0 & R). assert (Z := w_zero _ _ (qrun_WI _ _ _ R)). rewrite Z in RF. injection RF as <-. cbn in G. congruence. }
      apply NI_begin; auto.
      + intros d I. destruct c; cbn in I; try destruct (i =? 0); cbn in I; intuition discriminate.
      + intros d I. destruct c; cbn in I; try (now contradiction (N1 d0)); try destruct (ends && _)%bool; try destruct (i =? 0); cbn in I; intuition discriminate.
      + intros r0 d I. destruct c; cbn in I; try (now contradiction (N1 d0)); try destruct (ends && _)%bool; try destruct (i =? 0); cbn in I; intuition discriminate.
      + intros r0 I. destruct c; cbn in I; try destruct (ends && _)%bool; try destruct (i =? 0); cbn in I; intuition discriminate.
      + intros k I j J. destruct c; cbn in I; try destruct (ends && _)%bool; try destruct (i =? 0); cbn in I; try (intuition discriminate).
        all: destruct I as [[= ->]|[I|[]]]; [|discriminate]; rewrite (HC j i k J RF); left; cbn; apply in_or_app; right; now left.
      + intros k I. destruct c; cbn in I; try destruct (ends && _)%bool; try destruct (i =? 0); cbn in I; try (intuition discriminate).
        all: destruct I as [[= ->]|[I|[]]]; [|discriminate]; eauto.
      + intros I. destruct c; cbn in I; try destruct (ends && _)%bool; try destruct (i =? 0); cbn in I; intuition discriminate.
      + intros T Z. apply in_app_or in T as [T|T]; [auto|]. subst i.
        destruct R as (ms0 & R). assert (Z := w_zero _ _ (qrun_WI _ _ _ R)). rewrite Z in RF. injection RF as <-.
        destruct c; cbn in T; try (intuition discriminate); cbn; right; split; auto; intros m I; intuition (subst; auto).
      + intros T. destruct c; cbn in T; try destruct (i =? 0); cbn in T; intuition congruence.
    - intros s tr0 i x r s1 l ls (R & H) PC X. pose proof R as (ms0 & R0). split.
      { eapply reach_step with (m := QStep i); eauto. cbn [qstep]. now rewrite PC, X. }
      eapply NI_exec; eauto; [eapply qrun_RI|eapply qrun_WI]; eauto.
    - split; [now exists []|]. unfold q_init.
      split; cbn [q_pc q_ref q_last q_flag q_rk q_cnt q_nref q_over q_st]; try discriminate; try tauto.
      + intros d [[]|(k & [])].
      + intros k d [].
      + intros r d (k & []).
      + intros k [|(k' & [])]. discriminate.
      + intros i. destruct (i =? 0); discriminate.
      + intros (k & []).
      + intros [|(k & [])]. discriminate.
      + intros n [= <-]. reflexivity.
      + intros i j k. destruct (Nat.eqb_spec i 0), (Nat.eqb_spec j 0); congruence.
      + intros k (k' & []).
      + lia.
  Qed.

  Lemma q_not_early : forall ms s tr, qrun op q_init ms = (s, tr) -> not_early tr (finished_or_replaced tr).
  Proof. intros ms s tr E d I. exact (n_rel _ _ (qrun_NI _ _ _ E) d (or_introl I)). Qed.
End P.
