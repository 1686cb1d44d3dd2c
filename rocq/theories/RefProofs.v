(** Proofs about RefModel. *)
From Verif Require Import Base RelSpec ConcatModel RefModel.

Section P.
  Variable op : qop.

  Definition qpend (p : nat -> list qm) (m : qm) : Prop := exists k, In m (p k).

  Lemma qset_eq : forall X (f : nat -> X) i v, qset f i v i = v.
  Proof. intros. unfold qset. now rewrite Nat.eqb_refl. Qed.
  Lemma qset_ne : forall X (f : nat -> X) i v j, j <> i -> qset f i v j = f j.
  Proof. intros. unfold qset. now rewrite (proj2 (Nat.eqb_neq j i)). Qed.
  Lemma qpend_keep : forall p i x r l m, p i = x :: r -> qpend p m -> m = x \/ qpend (qset p i (l ++ r)) m.
  Proof.
    intros p i x r l m E (k & I). destruct (Nat.eq_dec k i) as [->|N].
    - rewrite E in I. destruct I as [->|I]; [now left|right]. exists i. rewrite qset_eq. apply in_or_app. now right.
    - right. exists k. now rewrite qset_ne.
  Qed.
  Lemma qpend_here : forall p i l r m, In m l -> qpend (qset p i (l ++ r)) m.
  Proof. intros. exists i. rewrite qset_eq. apply in_or_app. now left. Qed.
  Lemma qpend_back : forall p i x r l m, p i = x :: r -> qpend (qset p i (l ++ r)) m -> In m l \/ qpend p m.
  Proof.
    intros p i x r l m E (k & I). destruct (Nat.eq_dec k i) as [->|N].
    - rewrite qset_eq in I. apply in_app_or in I as [I|I]; [now left|right]. exists i. rewrite E. now right.
    - rewrite qset_ne in I by auto. right. now exists k.
  Qed.
  Lemma qpend_set : forall p i l m, p i = [] -> qpend p m -> qpend (qset p i l) m.
  Proof.
    intros p i l m E (k & I). exists k. destruct (Nat.eq_dec k i) as [->|N]; [rewrite E in I; destruct I|].
    now rewrite qset_ne.
  Qed.
  Lemma qpend_unset : forall p i l m, qpend (qset p i l) m -> In m l \/ qpend p m.
  Proof.
    intros p i l m (k & I). destruct (Nat.eq_dec k i) as [->|N].
    - rewrite qset_eq in I. now left.
    - rewrite qset_ne in I by auto. right. now exists k.
  Qed.
  Lemma qpend_in : forall p i l m, In m l -> qpend (qset p i l) m.
  Proof. intros. exists i. now rewrite qset_eq. Qed.

  (** Reasoning step by step. *)
  Lemma qrun_inv : forall (Inv : qs -> list rlab -> Prop),
    (forall s tr i d r, Inv s tr -> q_pc s i = [] -> q_ref s i = Some r ->
       Inv (qwith s i (if qgate op s i r then [QRel d] else qbody op i r (UUp d))) (tr ++ [LUp i d])) ->
    (forall s tr i, Inv s tr -> q_pc s i = [] -> Inv (qwith s i [QDDisp]) tr) ->
    (forall s tr i r c, Inv s tr -> q_pc s i = [] -> q_ref s i = Some r -> qgate op s i r = false ->
       (forall d, c <> UUp d) -> c <> UDisp -> Inv (qwith s i (qbody op i r c)) (tr ++ qlab op s i c)) ->
    (forall s tr i x r s' l ls, Inv s tr -> q_pc s i = x :: r -> qexec op s i x = (s', l, ls) -> Inv (qwith s' i (l ++ r)) (tr ++ ls)) ->
    forall ms s tr0, Inv s tr0 -> forall s' tr, qrun op s ms = (s', tr) -> Inv s' (tr0 ++ tr).
  Proof.
    intros Inv HU HD HB HM. induction ms as [|m ms IH]; intros s tr0 I0 s' tr E.
    - cbn in E. injection E as <- <-. now rewrite app_nil_r.
    - cbn [qrun] in E. destruct (qstep op s m) as [s1 a] eqn:R. destruct (qrun op s1 ms) as [s2 b] eqn:RR.
      injection E as <- <-. rewrite app_assoc. eapply IH; [|exact RR].
      destruct m as [i c|i]; cbn [qstep] in R.
      + destruct (qbegin op s i c) as [[s3 a']|] eqn:B; injection R as <- <-; [|now rewrite app_nil_r].
        unfold qbegin in B. destruct (q_pc s i) eqn:PC; [|discriminate].
        assert (DF : forall r, q_ref s i = Some r -> (forall d, c <> UUp d) -> c <> UDisp ->
                     (if qgate op s i r then Some (s, []) else Some (qwith s i (qbody op i r c), qlab op s i c)) = Some (s3, a') ->
                     Inv s3 (tr0 ++ a')).
        { intros r RF N1 N2 H. destruct (qgate op s i r) eqn:G; injection H as <- <-; [now rewrite app_nil_r|]. now apply HB. }
        destruct c as [d|b0| | | | ].
        * destruct (q_ref s i) as [r|] eqn:RF; [|discriminate]. injection B as <- <-. now apply HU.
        * destruct (q_ref s i) as [r|] eqn:RF; [|discriminate]. eapply DF; eauto; discriminate.
        * destruct (q_ref s i) as [r|] eqn:RF; [|discriminate]. eapply DF; eauto; discriminate.
        * destruct (q_ref s i) as [r|] eqn:RF; [|discriminate]. eapply DF; eauto; discriminate.
        * destruct (q_ref s i) as [r|] eqn:RF; [|discriminate]. eapply DF; eauto; discriminate.
        * injection B as <- <-. rewrite app_nil_r. now apply HD.
      + destruct (q_pc s i) as [|x r] eqn:PC.
        * injection R as <- <-. now rewrite app_nil_r.
        * destruct (qexec op s i x) as [[s3 l] ls] eqn:X. injection R as <- <-. eapply HM; eauto.
  Qed.

  (** The reference a step carries. *)
  Definition mref (m : qm) : option nat :=
    match m with
    | QRDisp r | QRAdd r _ | QBind r | QH1 r | QClear r | QSub r | QH3 r | QD1 r | QD2 r | QD3 r | QI1 r => r
    | QSAdd k | QSRem k => Some k
    | _ => None
    end.

  (** *** Everything is released *)
  Record RI (s : qs) (tr : list rlab) : Prop := MkRI {
    r_up : forall i d, In (LUp i d) tr -> In (LRel d) tr \/ qpend (q_pc s) (QRel d) \/
             exists r, q_ref s i = Some r /\ (qpend (q_pc s) (QRAdd r d) \/ exists k, r = Some k /\ In d (q_rk s k));
    r_rk : forall k, q_flag s k = true -> q_rk s k = [];
    r_live : forall k, k < q_nref s -> q_flag s k = true \/ In k (q_kids s) \/ qpend (q_pc s) (QRDisp (Some k)) \/ qpend (q_pc s) (QSAdd k);
    r_ov : q_over s = true -> q_st s = true \/ qpend (q_pc s) QSDisp;
    r_st : q_st s = true -> q_kids s = [];
    r_lab : In LOver tr -> q_over s = true;
    r_rem : forall k, qpend (q_pc s) (QSRem k) -> q_flag s k = true;
    r_ref : forall i k, q_ref s i = Some (Some k) -> k < q_nref s;
    r_mref : forall m k, qpend (q_pc s) m -> mref m = Some k -> k < q_nref s;
    r_kids : forall k, In k (q_kids s) -> k < q_nref s;
    r_subs : forall i, q_ref s i <> None -> i <= q_subs s;
    r_last : forall k, q_last s = Some k -> k < q_nref s
  }.

  Lemma RI_begin : forall s tr i l ls, RI s tr -> q_pc s i = [] ->
    (forall j d, In (LUp j d) ls -> In (QRel d) l \/ exists r, q_ref s j = Some r /\ In (QRAdd r d) l) ->
    ~ In LOver ls -> (forall k, ~ In (QSRem k) l) -> (forall m k, In m l -> mref m = Some k -> q_ref s i = Some (Some k)) ->
    RI (qwith s i l) (tr ++ ls).
  Proof.
    intros s tr i l ls [H1 H2 H3 H4 H5 H6 H7 H8 H9 HA HB HC] PC UP NO NR MR.
    split; cbn [qwith q_pc q_over q_st q_kids q_nref q_flag q_rk q_ref q_subs q_last]; auto.
    - intros j d I. apply in_app_or in I as [I|I].
      + destruct (H1 j d I) as [|[|(r & E & [|])]]; [left; apply in_or_app; auto|right; left; now apply qpend_set| |].
        * right. right. exists r. split; auto. left. now apply qpend_set.
        * right. right. exists r. auto.
      + destruct (UP j d I) as [|(r & E & J)]; [right; left; now apply qpend_in|]. right. right. exists r. split; auto. left. now apply qpend_in.
    - intros k K. destruct (H3 k K) as [|[|[|]]]; auto using qpend_set.
    - intro O. destruct (H4 O); auto using qpend_set.
    - intro I. apply in_app_or in I as [I|I]; [auto|]. now contradiction NO.
    - intros k K. apply qpend_unset in K as [K|K]; auto. now contradiction (NR k).
    - intros m k K. apply qpend_unset in K as [K|K]; eauto.
  Qed.

  Lemma in_relmap : forall d l, In d l -> In (QRel d) (map QRel l).
  Proof. intros. now apply in_map. Qed.

  Ltac keep H := match type of H with qpend ?p ?m =>
    match goal with |- context [qset p ?i (?l ++ ?r)] =>
      match goal with PC : p i = ?x :: r |- _ => destruct (qpend_keep p i x r l m PC H) as [?|?] end end end.

  Lemma RI_exec : forall s tr i x r s' l ls, RI s tr -> q_pc s i = x :: r -> qexec op s i x = (s', l, ls) ->
    RI (qwith s' i (l ++ r)) (tr ++ ls).
  Proof.
    intros s tr i x r s' l ls [H1 H2 H3 H4 H5 H6 H7 H8 H9 HA HB HC] PC X.
    assert (PX : qpend (q_pc s) x) by (exists i; rewrite PC; now left).
    destruct s as [p ov st ks cn nr fl rk rf la su sg qu lf lu].
    cbn [q_pc q_over q_st q_kids q_nref q_flag q_rk q_ref q_subs q_last] in *.
    assert (FR : rf (S su) = None) by (destruct (rf (S su)) eqn:Z; auto; assert (S su <= su) by (apply HB; congruence); lia).
    (* what stays *)
    assert (KU : forall (p' : nat -> list qm) l' rk' rf' ls', p' = qset p i (l' ++ r) ->
        (forall k d, In d (rk k) -> In d (rk' k) \/ In (QRel d) l') -> (forall j r0, rf j = Some r0 -> rf' j = Some r0) ->
        (forall d, x = QRel d -> In (LRel d) ls') -> (forall r0 d, x = QRAdd r0 d -> In (QRel d) l' \/ exists k, r0 = Some k /\ In d (rk' k)) ->
        forall j d, In (LUp j d) tr -> In (LRel d) (tr ++ ls') \/ qpend p' (QRel d) \/
             exists r0, rf' j = Some r0 /\ (qpend p' (QRAdd r0 d) \/ exists k, r0 = Some k /\ In d (rk' k))).
    { intros p' l' rk' rf' ls' -> A1 A2 A3 A4 j d I. destruct (H1 j d I) as [J|[J|(r0 & E & J)]].
      - left. apply in_or_app. auto.
      - destruct (qpend_keep p i x r l' _ PC J) as [J1|J1]; auto. left. apply in_or_app. right. apply A3. auto.
      - destruct J as [J|(k & -> & J)].
        + destruct (qpend_keep p i x r l' _ PC J) as [J1|J1].
          * destruct (A4 r0 d (eq_sym J1)) as [J2|J2]; [right; left; now apply qpend_here|].
            right. right. exists r0. auto.
          * right. right. exists r0. auto.
        + destruct (A1 k d J) as [J1|J1]; [right; right; exists (Some k); split; eauto|]. right. left. now apply qpend_here. }
    assert (KL : forall l' ks' fl' nr', (forall k, fl k = true -> fl' k = true) ->
        (forall k, In k ks -> fl' k = true \/ In k ks' \/ In (QRDisp (Some k)) l') ->
        (forall k, x = QRDisp (Some k) -> fl' k = true) -> (forall k, x = QSAdd k -> fl' k = true \/ In k ks' \/ In (QRDisp (Some k)) l') ->
        (forall k, nr <= k -> k < nr' -> In (QSAdd k) l') ->
        forall k, k < nr' -> fl' k = true \/ In k ks' \/ qpend (qset p i (l' ++ r)) (QRDisp (Some k)) \/ qpend (qset p i (l' ++ r)) (QSAdd k)).
    { intros l' ks' fl' nr' A1 A2 A3 A4 A5 k K. destruct (Nat.lt_ge_cases k nr) as [L|L].
      - destruct (H3 k L) as [J|[J|[J|J]]]; auto.
        + destruct (A2 k J) as [|[|]]; auto. right. right. left. now apply qpend_here.
        + destruct (qpend_keep p i x r l' _ PC J) as [J1|J1]; auto.
        + destruct (qpend_keep p i x r l' _ PC J) as [J1|J1]; auto. destruct (A4 k (eq_sym J1)) as [|[|]]; auto.
          right. right. left. now apply qpend_here.
      - right. right. right. apply qpend_here. auto. }
    assert (KM : forall l' nr', nr <= nr' -> (forall m k, In m l' -> mref m = Some k -> k < nr') ->
        forall m k, qpend (qset p i (l' ++ r)) m -> mref m = Some k -> k < nr').
    { intros l' nr' A1 A2 m k J E. apply (qpend_back p i x r l' m PC) in J as [J|J]; eauto. specialize (H9 m k J E). lia. }
    assert (KS : forall l' fl', (forall k, fl k = true -> fl' k = true) -> (forall k, In (QSRem k) l' -> fl' k = true) ->
        forall k, qpend (qset p i (l' ++ r)) (QSRem k) -> fl' k = true).
    { intros l' fl' A1 A2 k J. apply (qpend_back p i x r l' _ PC) in J as [J|J]; auto. }
    assert (KO : forall l', x <> QSDisp -> qpend p QSDisp -> qpend (qset p i (l' ++ r)) QSDisp).
    { intros l' N J. destruct (qpend_keep p i x r l' _ PC J); auto. congruence. }
    Ltac qcase := unfold qset in *; repeat match goal with
      | |- context [?a =? ?b] => destruct (Nat.eqb_spec a b); subst
      | H : context [?a =? ?b] |- _ => destruct (Nat.eqb_spec a b); subst end.
    Ltac inl H := cbn [In app] in H; repeat match type of H with
      | _ \/ _ => destruct H as [H|H]; [discriminate H || (injection H as <-) || subst|] | False => destruct H
      | In _ (_ ++ _) => apply in_app_or in H as [H|H]
      | In _ (map _ _) => let y := fresh "y" in let E := fresh "E" in apply in_map_iff in H as (y & E & H); try discriminate E; try (injection E as <-); try subst
      | In _ (match ?c with _ => _ end) => destruct c; cbn [In] in H end.
    Ltac one := intros; try discriminate; try (exfalso; lia); auto;
      try match goal with H : QRDisp _ = QRDisp _ |- _ => injection H as <- | H : QSAdd _ = QSAdd _ |- _ => injection H as <- | H : QRAdd _ _ = QRAdd _ _ |- _ => injection H as <- <- | H : QRel _ = QRel _ |- _ => injection H as <- end;
      qcase; auto.
    destruct x as [d| | |[k|]|k|[k|] d| |k| | |r0| | |r0|[k|]|r0|r0|r0|r0|r0|r0|d|]; cbn [qexec] in X;
      repeat match type of X with
             | (if ?b then _ else _) = _ => let B := fresh "B" in destruct b eqn:B
             | match ?b with None => _ | _ => _ end = _ => let B := fresh "B" in destruct b eqn:B
             | match ?b with SNone => _ | _ => _ end = _ => let B := fresh "B" in destruct b eqn:B
             | match ?b with 0 => _ | _ => _ end = _ => let B := fresh "B" in destruct b eqn:B
             end; injection X as <- <- <-;
      (split; cbn [qwith q_pc q_over q_st q_kids q_nref q_flag q_rk q_ref q_subs q_last];
       [intros j0 d0 I; apply in_app_or in I as [I|I]; [eapply KU; [reflexivity| | | | |exact I]; one|cbn in I; intuition discriminate]
       |one
       |apply KL; one
       |try (intro O; destruct (H4 O); [auto|right; apply KO; auto; discriminate])
       |one
       |intro I; apply in_app_or in I as [I|I]; [auto|try (cbn in I; intuition discriminate)]
       |apply KS; [one|intros k1 J; inl J; one]
       |one
       |apply KM; [auto|intros m k1 J E; inl J; cbn [mref] in E; try discriminate E; try (injection E as <-); try (apply (H9 _ _ PX); cbn; congruence); one]
       |one
       |one
       |one]).
    all: try solve [eapply H8; eassumption | eapply HC; eassumption | eapply HA; eassumption | eapply Nat.lt_lt_succ_r; eapply H8; eassumption
                   | eapply Nat.lt_lt_succ_r; eapply HC; eassumption| eapply Nat.lt_lt_succ_r; eapply HA; eassumption].
    all: try solve [now left | left; now left | right; right; now left | intros; now left | intros _; right; apply qpend_here; now left].
    all: try solve [rewrite H5; auto | right; right; now apply in_map | left; right; now apply in_map | right; now apply in_map].
    all: try solve [right; right; apply in_map_iff; eauto | right; right; right; apply in_or_app; right; now apply in_map ].
    all: try solve [match goal with |- Some _ = Some _ => congruence end].
    all: try solve [match goal with H : In _ [] |- _ => destruct H end
                   | match goal with H : In _ (_ ++ [_]) |- _ => apply in_app_or in H as [H|[<-|[]]]; [auto|apply (H9 _ _ PX); reflexivity] end
                   | match goal with H : Some ?r = Some (Some _) |- _ => injection H as ->; apply (H9 _ _ PX); reflexivity end
                   | match goal with H : ?r = Some _ |- _ => subst r; apply (H9 _ _ PX); reflexivity end
                   | match goal with J : match op with _ => _ end = _ |- _ => destruct op; cbn in J; congruence end].
    - right. right. apply in_or_app. right. now apply in_map.
    - left. apply in_or_app. auto.
    - right. exists k. split; auto. rewrite Nat.eqb_refl. apply in_or_app. right. now left.
    - congruence.
    - left. f_equal. lia.
    - destruct op; cbn in *; injection E as <-; lia.
    - destruct op; discriminate.
    - right. left. apply in_or_app. auto.
    - right. left. apply in_or_app. right. now left.
  Qed.

  Lemma qrun_RI : forall ms s tr, qrun op q_init ms = (s, tr) -> RI s tr.
  Proof.
    intros ms s tr E. change tr with ([] ++ tr). revert E. revert s tr. revert ms.
    enough (H : forall ms s' tr, qrun op q_init ms = (s', tr) -> RI s' ([] ++ tr)) by exact H.
    intros ms s' tr E. revert E. eapply (qrun_inv RI).
    - intros s tr0 i d r H PC RF. apply RI_begin; auto.
      + intros j d0 [[= <- <-]|[]]. destruct (qgate op s i r); [left; now left|]. right. exists r. split; auto.
        cbn. apply in_or_app. right. now left.
      + intros [|[]]. discriminate.
      + intros k. destruct (qgate op s i r); cbn; [intros [|[]]; discriminate|]. unfold qown. destruct (qowns op i); cbn; intuition discriminate.
      + intros m k I E. destruct (qgate op s i r); cbn in I; [destruct I as [<-|[]]; discriminate|].
        unfold qown in I. destruct (qowns op i); cbn in I; repeat (destruct I as [<-|I]; [cbn in E; try discriminate E; subst; exact RF|]); destruct I.
    - intros s tr0 i H PC. rewrite <- (app_nil_r tr0). apply RI_begin; auto; cbn; intuition (subst; try discriminate).
    - intros s tr0 i r c H PC RF G N1 N2. apply RI_begin; auto.
      + intros j d I. destruct c; cbn in I; try (now contradiction (N1 d0)); try (destruct I; fail); try (destruct I as [I|[]]; discriminate).
        destruct (i =? 0), op; cbn in I; intuition discriminate.
      + intro I. destruct c; cbn in I; try (now contradiction (N1 d)); try (destruct I; fail); try (destruct I as [I|[]]; discriminate).
        destruct (i =? 0), op; cbn in I; intuition discriminate.
      + intros k I. destruct c; cbn [qbody] in I; unfold qown in I; try (now contradiction (N1 d)); destruct (qowns op i), op, (i =? 0); try destruct ends; cbn in I; intuition discriminate.
      + intros m k I E. destruct c; cbn [qbody] in I; unfold qown in I; try (now contradiction (N1 d)); destruct (qowns op i), op, (i =? 0); try destruct ends; cbn in I; repeat (destruct I as [<-|I]; [cbn in E; try discriminate E; subst; exact RF|]); destruct I.
    - intros. eapply RI_exec; eauto.
    - split; cbn; try tauto; try discriminate.
      + intros k K. right. left. left. lia.
      + intros k (j & []).
      + intros i k. destruct (i =? 0); [|discriminate]. intros [= <-]. lia.
      + intros m k (j & []).
      + intros k [<-|[]]. lia.
      + intros i. destruct (Nat.eqb_spec i 0) as [->|N]; [lia|]. congruence.
  Qed.

  Lemma quiet_no : forall s m, qquiet s -> ~ qpend (q_pc s) m.
  Proof. intros s m Q (k & I). rewrite Q in I. destruct I. Qed.

  Lemma q_gone_rel : forall s tr i r, RI s tr -> qquiet s -> q_ref s i = Some r -> gone s r = true -> released tr i.
  Proof.
    intros s tr i r H Q RF G d I. destruct (r_up _ _ H i d I) as [|[J|(r' & E & [J|(k & -> & J)])]]; auto; try (now contradiction (quiet_no _ _ Q J)).
    rewrite RF in E. injection E as ->. cbn in G. rewrite (r_rk _ _ H k G) in J. destruct J.
  Qed.
  Lemma q_all_released : forall ms s tr i, qrun op q_init ms = (s, tr) -> qquiet s -> In LOver tr -> released tr i.
  Proof.
    intros ms s tr i E Q O d I. pose proof (qrun_RI _ _ _ E) as H.
    assert (ST : q_st s = true) by (destruct (r_ov _ _ H (r_lab _ _ H O)) as [|J]; auto; now contradiction (quiet_no _ _ Q J)).
    assert (FL : forall k, k < q_nref s -> q_flag s k = true).
    { intros k K. destruct (r_live _ _ H k K) as [|[J|[J|J]]]; auto; try (now contradiction (quiet_no _ _ Q J)).
      rewrite (r_st _ _ H ST) in J. destruct J. }
    destruct (r_up _ _ H i d I) as [|[J|(r & RF & [J|(k & -> & J)])]]; auto; try (now contradiction (quiet_no _ _ Q J)).
    rewrite (r_rk _ _ H k (FL k (r_ref _ _ H _ _ RF))) in J. destruct J.
  Qed.
  (** *** A source that has ended is released *)
  Record EI (s : qs) (tr : list rlab) : Prop := MkEI {
    e_up : forall i d, qowns op i = true -> In (LUp i d) tr ->
             In (LRel d) tr \/ qpend (q_pc s) (QRel d) \/ In (QLAdd d) (q_pc s i) \/ In d (q_lu s i);
    e_lf : forall i d, q_lf s i = true -> In d (q_lu s i) -> In (LRel d) tr \/ qpend (q_pc s) (QRel d);
    e_add : forall i d, q_lf s i = true \/ In QLDisp (q_pc s i) -> ~ In (QLAdd d) (q_pc s i);
    e_term : forall i, In (LTerm i) tr -> In LOver tr \/ qpend (q_pc s) QDDisp \/
               (qowns op i = false /\ exists r, q_ref s i = Some r /\ (gone s r = true \/ qpend (q_pc s) (QRDisp r))) \/
               (qowns op i = true /\ (q_lf s i = true \/ In QLDisp (q_pc s i)));
    e_over : q_over s = true -> In LOver tr;
    e_subs : forall i, q_ref s i <> None -> i <= q_subs s
  }.

  Lemma EI_begin : forall s tr i l ls, EI s tr -> q_pc s i = [] ->
    (forall j d, qowns op j = true -> In (LUp j d) ls -> j = i /\ (In (QRel d) l \/ In (QLAdd d) l)) ->
    (forall d, q_lf s i = true \/ In QLDisp l -> ~ In (QLAdd d) l) ->
    (forall j, In (LTerm j) ls -> j = i /\ (In QDDisp l \/ qowns op i = false /\ (exists r, q_ref s i = Some r /\ In (QRDisp r) l) \/ qowns op i = true /\ In QLDisp l)) ->
    EI (qwith s i l) (tr ++ ls).
  Proof.
    intros s tr i l ls [H1 H2 H3 H4 H5 H6] PC UP AD TE.
    assert (PI : forall j m, In m (q_pc s j) -> In m (qset (q_pc s) i l j)).
    { intros j m J. destruct (Nat.eq_dec j i) as [->|N]; [rewrite PC in J; destruct J|]. now rewrite qset_ne. }
    split; cbn [qwith q_pc q_over q_flag q_ref q_subs q_lf q_lu]; auto.
    - intros j d O I. apply in_app_or in I as [I|I].
      + destruct (H1 j d O I) as [|[|[|]]]; auto 6 using qpend_set, in_or_app.
      + destruct (UP j d O I) as (-> & [J|J]); [right; left; now apply qpend_in|]. right. right. left. now rewrite qset_eq.
    - intros j d F I. destruct (H2 j d F I); auto using qpend_set, in_or_app.
    - intros j d C J. destruct (Nat.eq_dec j i) as [->|N]; [rewrite qset_eq in *|rewrite qset_ne in * by auto]; [eapply AD|eapply H3]; eauto.
    - intros j I. apply in_app_or in I as [I|I].
      + destruct (H4 j I) as [|[|[(O & r & RF & [|])|(O & [|])]]].
        * left. apply in_or_app. auto.
        * right. left. now apply qpend_set.
        * right. right. left. split; auto. exists r. auto.
        * right. right. left. split; auto. exists r. auto using qpend_set.
        * auto 7.
        * right. right. right. auto.
      + destruct (TE j I) as (-> & [J|[(O & r & RF & J)|(O & J)]]).
        * right. left. now apply qpend_in.
        * right. right. left. split; auto. exists r. split; auto. right. now apply qpend_in.
        * right. right. right. split; auto. right. now rewrite qset_eq.
    - intro O. apply in_or_app. auto.
  Qed.

  Lemma qexec_new : forall s i x s' l ls, qexec op s i x = (s', l, ls) ->
    ~ In QLDisp l /\ (forall d, ~ In (QLAdd d) l) /\ (forall j d, ~ In (LUp j d) ls) /\ (forall j, ~ In (LTerm j) ls).
  Proof.
    intros [p ov st ks cn nr fl rk rf la su sg qu lf lu] i x s' l ls X.
    assert (M1 : forall a, ~ In QLDisp (map QRel a)) by (intros a I; apply in_map_iff in I as (y & E & _); discriminate).
    assert (M2 : forall a d, ~ In (QLAdd d) (map QRel a)) by (intros a d I; apply in_map_iff in I as (y & E & _); discriminate).
    assert (M3 : forall a, ~ In QLDisp (map (fun k => QRDisp (Some k)) a)) by (intros a I; apply in_map_iff in I as (y & E & _); discriminate).
    assert (M4 : forall a d, ~ In (QLAdd d) (map (fun k => QRDisp (Some k)) a)) by (intros a d I; apply in_map_iff in I as (y & E & _); discriminate).
    destruct x as [d| | |[k|]|k|[k|] d| |k| | |r0| | |r0|[k|]|r0|r0|r0|r0|r0|r0|d|]; cbn [qexec] in X;
      repeat match type of X with
             | (if ?b then _ else _) = _ => destruct b
             | match ?b with None => _ | _ => _ end = _ => destruct b
             | match ?b with SNone => _ | _ => _ end = _ => destruct b
             | match ?b with 0 => _ | _ => _ end = _ => destruct b
             end; injection X as <- <- <-; repeat split; intros; intro I; cbn [In] in I;
      repeat match type of I with
             | _ \/ _ => destruct I as [I|I]; [try discriminate I|]
             | In _ (_ ++ _) => apply in_app_or in I as [I|I]
             | In _ (match ?c with _ => _ end) => destruct c; cbn [In] in I
             end; try (destruct I; fail); try discriminate; try (now apply M1 in I); try (now apply M2 in I); try (now apply M3 in I); try (now apply M4 in I).
    all: destruct op; discriminate.
  Qed.

  Ltac casex X :=
    match type of X with qexec _ _ _ ?x = _ => destruct x as [?d| | |[?k|]|?k|[?k|] ?d| |?k| | |?r0| | |?r0|[?k|]|?r0|?r0|?r0|?r0|?r0|?r0|?d|] end; cbn [qexec] in X;
      repeat match type of X with
             | (if ?b then _ else _) = _ => let B := fresh "B" in destruct b eqn:B
             | match ?b with None => _ | _ => _ end = _ => let B := fresh "B" in destruct b eqn:B
             | match ?b with SNone => _ | _ => _ end = _ => let B := fresh "B" in destruct b eqn:B
             | match ?b with 0 => _ | _ => _ end = _ => let B := fresh "B" in destruct b eqn:B
             end; injection X as <- <- <-.

  Lemma qexec_state : forall s i x s' l ls, qexec op s i x = (s', l, ls) -> (forall i, q_ref s i <> None -> i <= q_subs s) ->
    q_pc s' = q_pc s /\ (forall k, q_flag s k = true -> q_flag s' k = true) /\
    (forall j r, q_ref s j = Some r -> q_ref s' j = Some r) /\
    (forall j d, In d (q_lu s j) -> In d (q_lu s' j)) /\
    (forall j d, In d (q_lu s' j) -> In d (q_lu s j) \/ j = i /\ x = QLAdd d) /\
    (forall j, q_lf s j = true -> q_lf s' j = true) /\
    (forall j, q_lf s' j = true -> q_lf s j = true \/ j = i /\ x = QLDisp) /\
    (forall d, x = QLAdd d -> In d (q_lu s' i)) /\
    (x = QLDisp -> q_lf s' i = true /\ forall d, In d (q_lu s i) -> In (QRel d) l) /\
    (forall r, x = QRDisp r -> gone s' r = true) /\
    (q_over s' = true -> q_over s = true \/ In LOver ls) /\
    (x = QDDisp -> q_over s = true \/ In LOver ls) /\
    (forall j, q_ref s' j <> None -> j <= q_subs s').
  Proof.
    intros [p ov st ks cn nr fl rk rf la su sg qu lf lu] i x s' l ls X HB. cbn [q_ref q_subs] in HB.
    assert (FR : rf (S su) = None) by (destruct (rf (S su)) eqn:Z; auto; assert (S su <= su) by (apply HB; congruence); lia).
    casex X; cbn [q_pc q_flag q_ref q_lu q_lf q_over q_subs gone].
    all: repeat match goal with |- _ /\ _ => split | |- forall _, _ => intro end.
    all: try discriminate; auto; try (left; assumption); try (right; now left); try (now left).
    all: try match goal with E : QRDisp _ = QRDisp _ |- _ => injection E as <- | E : QLAdd _ = QLAdd _ |- _ => injection E as <- end; cbn [gone q_flag]; auto.
    all: unfold qset in *; repeat match goal with
      | |- context [?a =? ?b] => destruct (Nat.eqb_spec a b); subst
      | H : context [?a =? ?b] |- _ => destruct (Nat.eqb_spec a b); subst end; auto; try congruence.
    all: try match goal with H : In _ (_ ++ [_]) |- _ => apply in_app_or in H as [H|[<-|[]]]; auto | |- In _ (_ ++ _) => apply in_or_app; cbn; auto end.
    all: try match goal with H : _ <> None |- _ => specialize (HB _ H); lia end.
    now apply in_map.
  Qed.

  Lemma EI_exec : forall s tr i x r s' l ls, EI s tr -> q_pc s i = x :: r -> qexec op s i x = (s', l, ls) ->
    EI (qwith s' i (l ++ r)) (tr ++ ls).
  Proof.
    intros s tr i x r s' l ls [H1 H2 H3 H4 H5 H6] PC X.
    destruct (qexec_new _ _ _ _ _ _ X) as (N1 & N2 & N3 & N4).
    assert (BK : forall j m, ~ In m l -> In m (qset (q_pc s) i (l ++ r) j) -> In m (q_pc s j)).
    { intros j m N J. destruct (Nat.eq_dec j i) as [->|D]; [rewrite qset_eq in J; apply in_app_or in J as [J|J]; [contradiction|rewrite PC; now right]|now rewrite qset_ne in J by auto]. }
    assert (FW : forall j m, In m (q_pc s j) -> (j = i /\ m = x) \/ In m (qset (q_pc s) i (l ++ r) j)).
    { intros j m J. destruct (Nat.eq_dec j i) as [->|D]; [rewrite qset_eq; rewrite PC in J; destruct J as [->|J]; [auto|right; apply in_or_app; auto]|right; now rewrite qset_ne]. }
    assert (REL : forall d, In (LRel d) tr \/ qpend (q_pc s) (QRel d) -> In (LRel d) (tr ++ ls) \/ qpend (qset (q_pc s) i (l ++ r)) (QRel d)).
    { intros d [J|J]; [left; apply in_or_app; auto|]. destruct (qpend_keep _ _ _ _ l _ PC J) as [J1|J1]; auto. subst x.
      destruct s. cbn [qexec] in X. injection X as <- <- <-. left. apply in_or_app. right. now left. }
    destruct (qexec_state _ _ _ _ _ _ X H6) as (PP & FL & RF & U1 & U2 & F1 & F2 & LA & LD & RD & O1 & O2 & SB).
    split; cbn [qwith q_pc q_over q_flag q_ref q_subs q_lf q_lu]; rewrite ?PP; auto.
    - intros j d O I. apply in_app_or in I as [I|I]; [|now contradiction (N3 j d)].
      destruct (H1 j d O I) as [J|[J|[J|J]]].
      + destruct (REL d (or_introl J)); auto.
      + destruct (REL d (or_intror J)); auto.
      + destruct (FW j _ J) as [(-> & <-)|J1]; auto.
      + auto.
    - intros j d F I. destruct (U2 j d I) as [J|(-> & ->)].
      + destruct (F2 j F) as [G|(-> & G)]; [apply REL; eauto|]. right. apply qpend_here. now apply (proj2 (LD G)).
      + exfalso. destruct (F2 i F) as [G|(_ & G)]; [|discriminate]. apply (H3 i d (or_introl G)). rewrite PC. now left.
    - intros j d C J. apply BK in J; auto. destruct C as [C|C].
      + destruct (F2 j C) as [G|(-> & G)]; [eapply H3; eauto|]. apply (H3 i d); auto. right. rewrite PC, G. now left.
      + apply BK in C; auto. eapply H3; eauto.
    - intros j I. apply in_app_or in I as [I|I]; [|now contradiction (N4 j)].
      destruct (H4 j I) as [J|[J|[(O & r1 & E & [J|J])|(O & [J|J])]]].
      + left. apply in_or_app. auto.
      + destruct (qpend_keep _ _ _ _ l _ PC J) as [J1|J1]; auto. left. apply in_or_app. destruct (O2 (eq_sym J1)); auto.
      + right. right. left. split; auto. exists r1. split; auto. left. destruct r1; auto. cbn in *. auto.
      + right. right. left. split; auto. exists r1. split; auto. destruct (qpend_keep _ _ _ _ l _ PC J) as [J1|J1]; auto. left.
        specialize (RD r1 (eq_sym J1)). destruct r1; auto.
      + auto 7.
      + right. right. right. split; auto. destruct (FW j _ J) as [(-> & J1)|J1]; auto. left. now apply LD.
    - intro O. apply in_or_app. destruct (O1 O); auto.
  Qed.

  Lemma qrun_EI : forall ms s tr, qrun op q_init ms = (s, tr) -> EI s tr.
  Proof.
    enough (H : forall ms s' tr, qrun op q_init ms = (s', tr) -> EI s' ([] ++ tr)) by exact H.
    intros ms s' tr E. revert E. eapply (qrun_inv EI).
    - intros s tr0 i d r H PC RF. apply EI_begin; auto.
      + intros j d0 O [[= <- <-]|[]]. split; auto. destruct (qgate op s i r); [left; now left|]. right.
        cbn. unfold qown. rewrite O. now left.
      + intros d0 C J. destruct (qgate op s i r) eqn:G.
        * destruct J as [J|[]]; discriminate.
        * unfold qgate in G. apply orb_false_iff in G as (G & _). cbn in J, C. unfold qown in *. destruct (qowns op i); cbn in *.
          -- destruct C as [C|[C|[C|[]]]]; congruence.
          -- destruct J as [J|[]]; discriminate.
      + intros j [J|[]]. discriminate.
    - intros s tr0 i H PC. rewrite <- (app_nil_r tr0). apply EI_begin; auto; cbn; intuition discriminate.
    - intros s tr0 i r c H PC RF G N1 N2. apply EI_begin; auto.
      + intros j d O I. destruct c; cbn in I; try (now contradiction (N1 d0)); try (destruct I; fail); try (destruct I as [I|[]]; discriminate).
        destruct (i =? 0), op; cbn in I; intuition discriminate.
      + intros d C I. destruct c; cbn [qbody] in I; unfold qown in I; try (now contradiction (N1 d0)); destruct (qowns op i), op, (i =? 0); try destruct ends; cbn in I; intuition discriminate.
      + intros j I. destruct c; cbn [qlab] in I; try (destruct I; fail).
        * destruct I as [[= <-]|[]]. split; auto. left. now left.
        * destruct I as [[= <-]|[]]. split; auto. right. cbn [qbody]. unfold qowns. destruct op; [left; split; auto; exists r; split; auto; now left|].
          destruct (i =? 0); cbn; [left; split; auto; exists r; split; auto; now left|]. right. auto.
        * destruct (i =? 0), op; cbn in I; intuition discriminate.
    - intros. eapply EI_exec; eauto.
    - split; cbn; try tauto; try discriminate.
      intros i. destruct (Nat.eqb_spec i 0) as [->|N]; [lia|]. congruence.
  Qed.

  Lemma q_ended_released : forall ms s tr i, qrun op q_init ms = (s, tr) -> qquiet s -> In (LTerm i) tr -> released tr i.
  Proof.
    intros ms s tr i E Q T. pose proof (qrun_RI _ _ _ E) as H. pose proof (qrun_EI _ _ _ E) as H'.
    destruct (e_term _ _ H' i T) as [J|[J|[(O & r & RF & [J|J])|(O & J)]]]; try (now contradiction (quiet_no _ _ Q J)).
    - eapply q_all_released; eauto.
    - eapply q_gone_rel; eauto.
    - assert (LF : q_lf s i = true) by (destruct J as [J|J]; auto; rewrite Q in J; destruct J).
      intros d I. destruct (e_up _ _ H' i d O I) as [K|[K|[K|K]]]; auto; try (now contradiction (quiet_no _ _ Q K)).
      + rewrite Q in K. destruct K.
      + destruct (e_lf _ _ H' i d LF K) as [K1|K1]; auto. now contradiction (quiet_no _ _ Q K1).
  Qed.
End P.
