(** concat: linearizability of every execution in which no observable is stranded in the
    queue. *)
From Verif Require Import Base Machine MachineProofs Concur MultiSpec MultiLin MultiCount MultiProofs CallLin ConcatSpec ConcatModel.

Lemma ndone_m : forall V (h : hist (unit + V)) m, m <= opened h ->
  (forall j, 1 <= j -> completed j h = (j <=? m)) -> ndone h = m.
Proof.
  intros V h m LE H. unfold ndone.
  replace (filter (fun j => completed j h) (seq 1 (opened h))) with (seq 1 m); [apply seq_length|].
  replace (opened h) with (m + (opened h - m)) by lia. rewrite seq_app, filter_app.
  assert (X : forall l, (forall j, In j l -> 1 <= j <= m) -> filter (fun j => completed j h) l = l).
  { induction l as [|x l IH]; intro HI; cbn; auto. rewrite H by (specialize (HI x (or_introl eq_refl)); lia).
    rewrite (proj2 (Nat.leb_le _ _)) by (specialize (HI x (or_introl eq_refl)); lia). f_equal. apply IH. intros; apply HI; now right. }
  assert (Y : forall l, (forall j, In j l -> m < j) -> filter (fun j => completed j h) l = []).
  { induction l as [|x l IH]; intro HI; cbn; auto. rewrite H by (specialize (HI x (or_introl eq_refl)); lia).
    rewrite (proj2 (Nat.leb_gt _ _)) by (specialize (HI x (or_introl eq_refl)); lia). apply IH. intros; apply HI; now right. }
  rewrite X, Y; [now rewrite app_nil_r | |]; intros j I; apply in_seq in I; lia.
Qed.

Section ConcatP.
  Context {V : Type} (D : machine V) (L : lawful D) (d0 : mst D).
  Notation run := (@cact cpc (unit + V)).
  Notation K := (@cpc V).
  Notation Run := (@Run (@cpc V) (unit + V)).
  Notation Idle := (@Idle (@cpc V) (unit + V)).
  Notation upr := (@upd_run (@cpc V) (unit + V)).
  Notation dd := (dd D (@concat_out V) d0).

  Definition istok (r : @cact (@cpc V) (unit + V)) : bool :=
    match r with
    | CallLin.Run _ k _ => match k with KRef _ | KH1 _ _ | KH2 _ _ | KH3 _ | KD1 _ | KD2 _ | KD3 _ => true | _ => false end
    | _ => false
    end.
  Definition rof (r : @cact (@cpc V) (unit + V)) : option nat :=
    match r with
    | CallLin.Run _ k _ => match k with KH1 _ r | KH2 _ r | KH3 r | KD1 r | KD2 r | KD3 r | KD4 r => r | _ => None end
    | _ => None
    end.
  Definition at5 (r : @cact (@cpc V) (unit + V)) : bool :=
    match r with CallLin.Run _ k _ => match k with KD5 | KD6 => true | _ => false end | _ => false end.

  Inductive tok := TNone | TProc (r : nat) | TThr (t : nat).

  Definition ph (g : cst D) (m s q : nat) (j : nat) (r : @cact (@cpc V) (unit + V)) : Prop :=
    match r with
    | CallLin.Idle => True
    | CallLin.Run e k l =>
        match k with
        | K0 => l = false
        | KCas | KPush => l = false /\ j = 0 /\ (exists u, e = Next (inl u)) /\ c_outer D g = true
        | KOut p => l = false /\
            ((j = 0 /\ c_outer D g = true /\ exists x, e = Err x /\ p = Err x) \/
             (1 <= j /\ j = s /\ S m = s /\ ((exists v, e = Next (inr v) /\ p = Next v) \/ (exists x, e = Err x /\ p = Err x))))
        | KI1 => l = false /\ 1 <= j /\ j = s /\ S m = s /\ e = Done
        | KOd => l = false /\ j = 0 /\ e = Done /\ c_outer D g = true
        | KRef x => l = true /\ j = 0 /\ c_outer D g = true /\ c_stage D g = SDrain /\ x = c_arr D g /\ q = c_arr D g /\ S s = q /\ S m = q
        | KH1 x r => l = true /\ r <> None /\ c_stage D g <> SNone /\ x = q /\ S s = q /\ S m = q
        | KH2 x r => l = true /\ r <> None /\ c_stage D g = SDrain /\ x = q /\ S s = q /\ S m = q
        | KH3 r => l = true /\ r <> None /\ 1 <= s /\ s = q /\ ref_of D g s = Some r /\
                   ((c_stage D g = SDrain /\ S m = s) \/ (c_stage D g = SCompl /\ m = s))
        | KD1 r | KD2 r | KD3 r => l = true /\ r <> None /\ c_stage D g <> SNone /\ s = q /\ m = s
        | KD4 r => l = true /\ r <> None
        | KD5 => l = true
        | KD6 => l = true /\ c_outer D g = false /\ c_refs D g = []
        | KFin => l = true
        end
    end.

  Record Live (m s q : nat) (tk : tok) (g : cst D) (c : nat -> @cact (@cpc V) (unit + V)) (tr : list (alab (unit + V))) : Prop := {
    v_alive : mdisp D (c_down D g) = false;
    v_late : c_late D g = false;
    v_n : opened (live (lins tr)) = c_arr D g;
    v_end : forall j, endedb j (live (lins tr)) = if j =? 0 then negb (c_outer D g) else j <=? m;
    v_compl : forall j, completed j (live (lins tr)) = endedb j (live (lins tr));
    v_subs : map fst (c_subs D g) = seq 1 s;
    v_q : c_queue D g = seq (S q) (c_arr D g - q);
    v_ord : m <= s /\ s <= S m /\ s <= q /\ q <= c_arr D g;
    v_down : dd tr = mrun D (c_down D g) (if negb (c_outer D g) && (m =? c_arr D g) then [Done] else []);
    v_e1 : forall j, In j (c_ended D g) -> 1 <= j <= m;
    v_e2 : forall j, 1 <= j <= m -> In j (c_ended D g) \/ exists k, c j = Run Done k true;
    v_l1 : forall j e k, c j = Run e k true -> is_term e = true -> 1 <= j -> j <= m;
    v_ph : forall j, ph g m s q j (c j);
    v_tok : match tk with
            | TNone => c_stage D g = SNone /\ q = c_arr D g /\ m = s /\ s = q /\ forall j, istok (c j) = false
            | TProc r => c_stage D g = SProc /\ s = q /\ S m = s /\ ref_of D g s = Some (Some r) /\ In r (c_refs D g) /\
                         (forall j, rof (c j) <> Some r) /\ forall j, istok (c j) = false
            | TThr t => istok (c t) = true /\ forall j, istok (c j) = true -> j = t
            end;
    v_r1 : forall r, In r (c_refs D g) -> tk = TProc r \/ exists j, rof (c j) = Some r;
    v_r2 : forall i j r, rof (c i) = Some r -> rof (c j) = Some r -> i = j;
    v_r5 : forall r, In r (c_refs D g) -> r < c_nref D g;
    v_r6 : forall j r, rof (c j) = Some r -> In r (c_refs D g);
    v_w : c_outer D g = false -> c_refs D g = [] -> exists j, at5 (c j) = true
  }.

  Definition JX (g : cst D) (c : nat -> @cact (@cpc V) (unit + V)) (tr : list (alab (unit + V))) : Prop :=
    c_late D g = true \/ (mdisp D (c_down D g) = true /\ c_down D g = dd tr) \/
    exists m s q tk, Live m s q tk g c tr.

  Ltac dl H := destruct H as [AL LT NN EN CO SU QU OR DN E1 E2 L1 PH TK R1 R2 R5 R6 W].
  Ltac uc j i := unfold upd_run; destruct (Nat.eqb_spec j i); [subst j | ].

  Lemma live_ext : forall m s q tk g c c' tr, (forall j, c' j = c j) -> Live m s q tk g c tr -> Live m s q tk g c' tr.
  Proof.
    intros m s q tk g c c' tr E LV. dl LV.
    constructor; auto.
    - intros j H. rewrite E. auto.
    - intros j e k H. rewrite E in H. eauto.
    - intro j. rewrite E. auto.
    - destruct tk.
      + repeat match goal with H : _ /\ _ |- _ => destruct H end. repeat split; auto. intro j. rewrite E. auto.
      + repeat match goal with H : _ /\ _ |- _ => destruct H end. repeat split; auto; intro j; rewrite E; auto.
      + destruct TK as [T1 T2]. rewrite E. split; auto. intros j H. rewrite E in H. auto.
    - intros r H. destruct (R1 r H) as [|[j X]]; auto. right. exists j. now rewrite E.
    - intros i j r. rewrite !E. eauto.
    - intros j r. rewrite E. eauto.
    - intros H1 H2. destruct (W H1 H2) as [j X]. exists j. now rewrite E.
  Qed.
  Lemma upr_twice : forall (c : nat -> @cact (@cpc V) (unit + V)) i a b j, upr (upr c i a) i b j = upr c i b j.
  Proof. intros. unfold upd_run. destruct (j =? i); auto. Qed.

  (** Stability of what other threads know. *)
  Lemma ph_same : forall g g' m s q j r, ph g m s q j r ->
    c_stage D g' = c_stage D g -> c_subs D g' = c_subs D g ->
    (j = 0 -> c_outer D g' = c_outer D g) -> (j = 0 -> c_arr D g' = c_arr D g) ->
    (c_outer D g = false -> c_refs D g = [] -> c_outer D g' = false /\ c_refs D g' = []) -> ph g' m s q j r.
  Proof.
    intros g g' m s q j r P ST SB OU AR Z. destruct r as [|e k l]; auto.
    destruct k; cbn [ph] in *; unfold ref_of in *; rewrite ?ST, ?SB; auto;
      repeat match goal with H : _ /\ _ |- _ => destruct H end; repeat split; auto; try (rewrite OU by auto; solve [auto]); try (rewrite AR by auto; solve [auto]);
      try (apply Z; auto).
    all: match goal with H : _ \/ _ |- _ => destruct H as [(H1 & H2 & H3)|H1]; [left | right] end; auto.
    rewrite OU; auto.
  Qed.
  Lemma ph_other : forall g g' m s q m' s' q' j r, ph g m s q j r -> istok r = false ->
    (j = 0 -> c_outer D g' = c_outer D g) ->
    (1 <= j -> j = s -> S m = s -> j = s' /\ S m' = s') ->
    (c_outer D g = false -> c_refs D g = [] -> c_outer D g' = false /\ c_refs D g' = []) -> ph g' m' s' q' j r.
  Proof.
    intros g g' m s q m' s' q' j r P NT OU CU Z. destruct r as [|e k l]; auto.
    destruct k; cbn [ph istok] in *; try discriminate; auto;
      repeat match goal with H : _ /\ _ |- _ => destruct H end; repeat split; auto; try (rewrite OU by auto; solve [auto]); try (apply CU; solve [auto]);
      try (apply Z; auto).
    all: match goal with H : _ \/ _ |- _ => destruct H as [(H1 & H2 & H3)|(H1 & H2 & H3 & H4)]; [left | right] end.
    - rewrite OU; auto.
    - destruct (CU H1 H2 H3). auto.
  Qed.

  Lemma live_pc : forall m s q tk g c tr i e k l k', Live m s q tk g c tr -> c i = Run e k l ->
    ph g m s q i (Run e k' l) -> istok (Run e k' l) = istok (Run e k l) -> rof (Run e k' l) = rof (Run e k l) ->
    (at5 (Run e k l) = true -> at5 (Run e k' l) = true \/ ~ (c_outer D g = false /\ c_refs D g = [])) ->
    Live m s q tk g (upr c i (Run e k' l)) tr.
  Proof.
    intros m s q tk g c tr i e k l k' LV C P T R F. dl LV.
    assert (TI : forall j, istok (upr c i (Run e k' l) j) = istok (c j)).
    { intro j. uc j i; auto. now rewrite T, C. }
    assert (RI : forall j, rof (upr c i (Run e k' l) j) = rof (c j)).
    { intro j. uc j i; auto. now rewrite R, C. }
    constructor; auto.
    - intros j H. destruct (E2 j H) as [|[k1 X]]; auto. right. uc j i; eauto. rewrite C in X. injection X as -> -> ->. eauto.
    - intros j e1 k1. uc j i; eauto. intro X. injection X as -> _ ->. eauto.
    - intro j. uc j i; auto.
    - destruct tk.
      + repeat match goal with H : _ /\ _ |- _ => destruct H end. repeat split; auto. intro j. rewrite TI. auto.
      + repeat match goal with H : _ /\ _ |- _ => destruct H end. repeat split; auto; intro j; rewrite ?TI, ?RI; auto.
      + destruct TK as [T1 T2]. rewrite TI. split; auto. intros j H. rewrite TI in H. auto.
    - intros r H. destruct (R1 r H) as [|[j X]]; auto. right. exists j. now rewrite RI.
    - intros a b r. rewrite !RI. eauto.
    - intros j r. rewrite RI. eauto.
    - intros H1 H2. destruct (W H1 H2) as [j X]. exists j. uc j i; auto. rewrite C in X. destruct (F X) as [|N]; auto; exfalso; auto.
  Qed.

  (** An event without output takes effect. *)
  Lemma live_lin : forall (tr : list (alab (unit + V))) i e, live (lins (tr ++ [Lin i e])) =
    live (lins tr) ++ (if endedb i (live (lins tr)) then [] else [(i, e)]).
  Proof. intros. rewrite lins_app. cbn. apply live_snoc. Qed.

  (** A call that takes effect without doing anything. *)
  Lemma lin_nothing : forall m s q tk g c tr i e k k', Live m s q tk g c tr -> c i = Run e k false ->
    (endedb i (live (lins tr)) = true \/ (exists a, e = Next a /\ concat_out (live (lins tr)) i e = [] /\ opened [(i, e)] = 0)) ->
    (is_term e = true -> 1 <= i -> i <= m) -> ph g m s q i (Run e k' true) ->
    istok (Run e k' true) = istok (Run e k false) -> rof (Run e k' true) = rof (Run e k false) -> at5 (Run e k false) = false ->
    Live m s q tk g (upr c i (Run e k' true)) (tr ++ [Lin i e]).
  Proof.
    intros m s q tk g c tr i e k k' LV C H HT P T R A5.
    assert (X : Live m s q tk g c (tr ++ [Lin i e])).
    { dl LV. assert (HL : forall j, endedb j (live (lins (tr ++ [Lin i e]))) = endedb j (live (lins tr)) /\ completed j (live (lins (tr ++ [Lin i e]))) = completed j (live (lins tr))).
      { intro j. rewrite live_lin. destruct (endedb i _) eqn:E; [rewrite app_nil_r; auto|].
        destruct H as [?|(a & -> & _)]; [congruence|]. rewrite endedb_app, completed_app. cbn. rewrite !andb_false_r, !orb_false_r. auto. }
      constructor; auto.
      - rewrite live_lin. destruct (endedb i _) eqn:E; [now rewrite app_nil_r|]. destruct H as [?|(a & _ & _ & O)]; [congruence|].
        rewrite opened_app, O. lia.
      - intro j. destruct (HL j) as [-> _]. auto.
      - intro j. destruct (HL j) as [-> ->]. auto.
      - rewrite dd_lin. destruct (endedb i _) eqn:E; auto. destruct H as [?|(a & _ & -> & _)]; [congruence|]. auto. }
    clear H. dl X.
    assert (TI : forall j, istok (upr c i (Run e k' true) j) = istok (c j)).
    { intro j. uc j i; auto. now rewrite T, C. }
    assert (RI : forall j, rof (upr c i (Run e k' true) j) = rof (c j)).
    { intro j. uc j i; auto. now rewrite R, C. }
    constructor; auto.
    - intros j H. destruct (E2 j H) as [|[k1 X]]; auto. right. uc j i; eauto. rewrite C in X. discriminate.
    - intros j e1 k1. uc j i; eauto. intro X. injection X as -> _. auto.
    - intro j. uc j i; auto.
    - destruct tk.
      + repeat match goal with H : _ /\ _ |- _ => destruct H end. repeat split; auto. intro j. rewrite TI. auto.
      + repeat match goal with H : _ /\ _ |- _ => destruct H end. repeat split; auto; intro j; rewrite ?TI, ?RI; auto.
      + destruct TK as [T1 T2]. rewrite TI. split; auto. intros j H. rewrite TI in H. auto.
    - intros r H. destruct (R1 r H) as [|[j X]]; auto. right. exists j. now rewrite RI.
    - intros a b r. rewrite !RI. eauto.
    - intros j r. rewrite RI. eauto.
    - intros H1 H2. destruct (W H1 H2) as [j X]. exists j. uc j i; auto. rewrite C in X. congruence.
  Qed.

  Ltac gt := match goal with |- context [c_late] => idtac | _ => idtac end; cbn [c_stage c_queue c_arr c_subs c_outer c_refs c_nref c_ended c_late c_down with_stage].

  Lemma cur_ref : forall m s q tk g c tr, Live m s q tk g c tr -> S m = s ->
    exists r, ref_of D g s = Some (Some r) /\ In r (c_refs D g).
  Proof.
    intros m s q tk g c tr LV E. dl LV. destruct tk as [|r|t].
    - lia.
    - destruct TK as (_ & _ & _ & T1 & T2 & _). eauto.
    - destruct TK as [T1 _]. specialize (PH t). pose proof (R6 t) as R6t. destruct (c t) as [|e k l]; [discriminate|].
      destruct k; try discriminate; cbn [ph] in PH; repeat match goal with H : _ /\ _ |- _ => destruct H end; try lia.
      destruct r as [r|]; [|congruence]. exists r. split; auto.
  Qed.
  Lemma tok_none : forall m s q tk g c tr, Live m s q tk g c tr -> c_stage D g = SNone -> tk = TNone.
  Proof.
    intros m s q tk g c tr LV E. dl LV. destruct tk as [|r|t]; auto.
    - destruct TK as (T & _). congruence.
    - destruct TK as [T1 _]. specialize (PH t). destruct (c t) as [|e k l]; [discriminate|].
      destruct k; try discriminate; cbn [ph] in PH; repeat match goal with H : _ /\ _ |- _ => destruct H end; try congruence.
      destruct H4 as [[? _]|[? _]]; congruence.
  Qed.
  Lemma refs_none : forall m s q tk g c tr, Live m s q tk g c tr -> c_refs D g = [] ->
    tk = TNone \/ exists t e x l, tk = TThr t /\ c t = Run e (KRef x) l.
  Proof.
    intros m s q tk g c tr LV E. dl LV. destruct tk as [|r|t]; auto.
    - destruct TK as (_ & _ & _ & _ & T & _). rewrite E in T. destruct T.
    - destruct TK as [T1 _]. specialize (PH t). pose proof (R6 t) as R6t. rewrite E in R6t. destruct (c t) as [|e k l] eqn:CT; [discriminate|].
      destruct k; try discriminate; cbn [ph] in PH; repeat match goal with H : _ /\ _ |- _ => destruct H end;
        try (destruct r as [r|]; [|congruence]; destruct (R6t r eq_refl)).
      right. do 4 eexists. split; [reflexivity | exact CT].
  Qed.
  Lemma mdisposed : forall m s q tk g c tr, Live m s q tk g c tr ->
    m_disposed D g = negb (c_outer D g) && match c_refs D g with [] => true | _ => false end.
  Proof. intros m s q tk g c tr LV. unfold m_disposed. rewrite (v_alive _ _ _ _ _ _ _ LV). apply orb_false_r. Qed.
  Lemma tok_me : forall m s q tk g c tr i, Live m s q tk g c tr -> istok (c i) = true -> tk = TThr i.
  Proof.
    intros m s q tk g c tr i LV T. dl LV. destruct tk as [|r|t].
    - destruct TK as (_ & _ & _ & _ & X). rewrite X in T. discriminate.
    - destruct TK as (_ & _ & _ & _ & _ & _ & X). rewrite X in T. discriminate.
    - destruct TK as [_ X]. now rewrite (X i T).
  Qed.

  (** Outer event that opens an observable. *)
  Lemma hist_open : forall m s q tk g c tr u, Live m s q tk g c tr -> c_outer D g = true ->
    opened (live (lins (tr ++ [Lin 0 (Next (@inl unit V u))]))) = S (c_arr D g) /\
    (forall j, endedb j (live (lins (tr ++ [Lin 0 (Next (inl u))]))) = endedb j (live (lins tr)) /\
               completed j (live (lins (tr ++ [Lin 0 (Next (inl u))]))) = completed j (live (lins tr))) /\
    dd (tr ++ [Lin 0 (Next (inl u))]) = dd tr.
  Proof.
    intros m s q tk g c tr u LV O. dl LV. assert (E : endedb 0 (live (lins tr)) = false) by (rewrite EN; cbn; now rewrite O).
    rewrite live_lin, dd_lin, E. split; [|split].
    - rewrite opened_app, NN. unfold opened. cbn. lia.
    - intro j. rewrite endedb_app, completed_app. cbn. rewrite !andb_false_r, !orb_false_r. auto.
    - reflexivity.
  Qed.

  Lemma step_cas : forall m s q tk g c tr u l, Live m s q tk g c tr -> c 0 = Run (Next (inl u)) KCas l -> c_stage D g = SNone ->
    Live m s (S (c_arr D g)) (TThr 0)
      (CS D SDrain (c_queue D g) (S (c_arr D g)) (c_subs D g) (c_outer D g) (c_refs D g) (c_nref D g) (c_ended D g) (c_late D g) (c_down D g))
      (upr c 0 (Run (Next (inl u)) (KRef (S (c_arr D g))) true)) (tr ++ [Lin 0 (Next (inl u))]).
  Proof.
    intros m s q tk g c tr u l LV C ST. pose proof (tok_none _ _ _ _ _ _ _ LV ST) as ->.
    pose proof (v_ph _ _ _ _ _ _ _ LV 0) as P0. rewrite C in P0. destruct P0 as (_ & _ & _ & OU).
    destruct (hist_open _ _ _ _ _ _ _ u LV OU) as (H1 & H2 & H3). dl LV. destruct TK as (_ & Tq & Tm & Ts & TI).
    constructor; gt; auto.
    - intro j. destruct (H2 j) as [-> _]. auto.
    - intro j. destruct (H2 j) as [-> ->]. auto.
    - rewrite QU. rewrite Tq, !Nat.sub_diag. reflexivity.
    - lia.
    - rewrite H3, DN, OU. reflexivity.
    - intros j H. destruct (E2 j H) as [|[k1 X]]; auto. right. uc j 0; eauto. lia.
    - intros j e1 k1. uc j 0; eauto. intro X. injection X as <- _. discriminate.
    - intro j. uc j 0.
      + cbn. repeat split; auto; lia.
      + eapply ph_other; [exact (PH j) | apply TI | auto | auto | auto].
    - split; [reflexivity|]. intro j. uc j 0; auto. rewrite TI. discriminate.
    - intros r H. destruct (R1 r H) as [?|[j X]]; [discriminate|]. right. exists j. uc j 0; auto. rewrite C in X. discriminate.
    - intros a b r. uc a 0; uc b 0; auto; try discriminate; eauto.
    - intros j r. uc j 0; eauto. discriminate.
    - congruence.
  Qed.

  Lemma step_push : forall m s q tk g c tr u l, Live m s q tk g c tr -> c 0 = Run (Next (inl u)) KPush l -> c_stage D g <> SNone ->
    Live m s q tk
      (CS D (c_stage D g) (c_queue D g ++ [S (c_arr D g)]) (S (c_arr D g)) (c_subs D g) (c_outer D g) (c_refs D g) (c_nref D g) (c_ended D g)
                 (c_late D g || is_none (c_stage D g)) (c_down D g))
      (upr c 0 (Run (Next (inl u)) KFin true)) (tr ++ [Lin 0 (Next (inl u))]).
  Proof.
    intros m s q tk g c tr u l LV C ST.
    pose proof (v_ph _ _ _ _ _ _ _ LV 0) as P0. rewrite C in P0. destruct P0 as (_ & _ & _ & OU).
    destruct (hist_open _ _ _ _ _ _ _ u LV OU) as (H1 & H2 & H3). dl LV.
    assert (TI : forall j, istok (upr c 0 (Run (Next (inl u)) KFin true) j) = istok (c j)).
    { intro j. uc j 0; auto. now rewrite C. }
    assert (RI : forall j, rof (upr c 0 (Run (Next (inl u)) KFin true) j) = rof (c j)).
    { intro j. uc j 0; auto. now rewrite C. }
    constructor; gt; auto.
    - rewrite LT. destruct (c_stage D g); auto; congruence.
    - intro j. destruct (H2 j) as [-> _]. auto.
    - intro j. destruct (H2 j) as [-> ->]. auto.
    - rewrite QU. replace (S (c_arr D g) - q) with (S (c_arr D g - q)) by lia. rewrite seq_S. f_equal. f_equal. lia.
    - lia.
    - rewrite H3, DN, OU. reflexivity.
    - intros j H. destruct (E2 j H) as [|[k1 X]]; auto. right. uc j 0; eauto. lia.
    - intros j e1 k1. uc j 0; eauto. intro X. injection X as <- _. discriminate.
    - intro j. uc j 0; [reflexivity|]. eapply ph_same; [exact (PH j) | reflexivity | reflexivity | auto | | auto]. intro; lia.
    - destruct tk.
      + destruct TK as (? & _). congruence.
      + repeat match goal with H : _ /\ _ |- _ => destruct H end. repeat split; auto; intro j; rewrite ?TI, ?RI; auto.
      + destruct TK as [T1 T2]. rewrite TI. split; auto. intros j H. rewrite TI in H. auto.
    - intros r H. destruct (R1 r H) as [|[j X]]; auto. right. exists j. now rewrite RI.
    - intros a b r. rewrite !RI. eauto.
    - intros j r. rewrite RI. eauto.
    - congruence.
  Qed.

  (** Token thread moves on without anything taking effect. *)
  Lemma step_ref : forall m s q tk g c tr i e x l, Live m s q tk g c tr -> c i = Run e (KRef x) l ->
    m_disposed D g = false /\
    Live m s q tk
      (CS D (c_stage D g) (c_queue D g) (c_arr D g) (c_subs D g) (c_outer D g) (c_nref D g :: c_refs D g) (S (c_nref D g)) (c_ended D g) (c_late D g) (c_down D g))
      (upr c i (Run e (KH1 x (Some (c_nref D g))) l)) tr.
  Proof.
    intros m s q tk g c tr i e x l LV C. pose proof (mdisposed _ _ _ _ _ _ _ LV) as MD.
    assert (T : istok (c i) = true) by now rewrite C.
    pose proof (tok_me _ _ _ _ _ _ _ i LV T) as ->.
    pose proof (v_ph _ _ _ _ _ _ _ LV i) as P. rewrite C in P. destruct P as (Pl & Pj & OU & ST & Px & Pq & Ps & Pm).
    split; [now rewrite MD, OU|]. dl LV. destruct TK as [_ TU].
    assert (NT : forall j, j <> i -> istok (c j) = false).
    { intros j N. destruct (istok (c j)) eqn:E; auto. exfalso. auto. }
    constructor; gt; auto.
    - intros j H. destruct (E2 j H) as [|[k1 X]]; auto. right. uc j i; eauto. lia.
    - intros j e1 k1. uc j i; eauto. intros _ _ ?. lia.
    - intro j. uc j i.
      + cbn. rewrite ST. repeat split; auto; try congruence.
      + eapply ph_other; [exact (PH j) | auto | auto | auto | congruence].
    - split; [unfold upd_run; rewrite Nat.eqb_refl; reflexivity|]. intro j. uc j i; auto.
    - intros r [<-|H]; [right; exists i; unfold upd_run; rewrite Nat.eqb_refl; reflexivity|]. destruct (R1 r H) as [?|[j X]]; [discriminate|]. right. exists j. uc j i; auto.
      rewrite C in X. discriminate.
    - intros a b r. uc a i; uc b i; auto; cbn.
      + intros X Y. injection X as <-. apply R6, R5 in Y. lia.
      + intros X Y. injection Y as <-. apply R6, R5 in X. lia.
      + eauto.
    - intros r [<-|H]; [lia|]. apply R5 in H. lia.
    - intros j r. uc j i; cbn; intro H; [left; congruence | right; eauto].
    - discriminate.
  Qed.

  Lemma step_h1 : forall m s q tk g c tr i e x r l, Live m s q tk g c tr -> c i = Run e (KH1 x r) l ->
    Live m s q tk (with_stage D g SDrain) (upr c i (Run e (KH2 x r) l)) tr.
  Proof.
    intros m s q tk g c tr i e x r l LV C. assert (T : istok (c i) = true) by now rewrite C.
    pose proof (tok_me _ _ _ _ _ _ _ i LV T) as ->.
    pose proof (v_ph _ _ _ _ _ _ _ LV i) as P. rewrite C in P. cbn [ph] in P.
    assert (LV' : Live m s q (TThr i) g (upr c i (Run e (KH1 x r) l)) tr).
    { eapply live_ext; [|exact LV]. intro j. uc j i; auto. }
    dl LV. destruct TK as [_ TU].
    assert (NT : forall j, j <> i -> istok (c j) = false).
    { intros j N. destruct (istok (c j)) eqn:E; auto. exfalso. auto. }
    constructor; gt; auto.
    - rewrite LT. reflexivity.
    - intros j H. destruct (E2 j H) as [|[k1 X]]; auto. right. uc j i; eauto. rewrite C in X. injection X as -> _ ->. eauto.
    - intros j e1 k1. uc j i; eauto. intro X. injection X as -> _ ->. eauto.
    - intro j. uc j i.
      + cbn. destruct P as (? & ? & ? & ? & ? & ?). repeat split; auto.
      + eapply ph_other; [exact (PH j) | auto | auto | auto | auto].
    - split; [unfold upd_run; rewrite Nat.eqb_refl; reflexivity|]. intro j. uc j i; auto.
    - intros r0 H. destruct (R1 r0 H) as [?|[j X]]; [discriminate|]. right. exists j. uc j i; auto.
      rewrite C in X. exact X.
    - intros a b r0 X Y. apply (v_r2 _ _ _ _ _ _ _ LV' a b r0); [revert X | revert Y]; [uc a i | uc b i]; auto.
    - intros j r0 X. apply (v_r6 _ _ _ _ _ _ _ LV' j r0). revert X. uc j i; auto.
    - intros H1 H2. destruct (W H1 H2) as [j X]. exists j. uc j i; auto. rewrite C in X. discriminate.
  Qed.

  Lemma find_seq : forall (l : list (nat * option nat)) a n x r, map fst l = seq a n -> x = a + n ->
    find (fun y => fst y =? x) (l ++ [(x, r)]) = Some (x, r) /\
    forall j, j <> x -> find (fun y => fst y =? j) (l ++ [(x, r)]) = find (fun y => fst y =? j) l.
  Proof.
    induction l as [|[y z] l IH]; intros a n x r H E; destruct n as [|n]; try discriminate; cbn.
    - rewrite Nat.eqb_refl. split; auto. intros j N. destruct (Nat.eqb_spec x j); congruence.
    - cbn in H. injection H as -> H. destruct (IH (S a) n x r H ltac:(lia)) as [I1 I2]. split.
      + destruct (Nat.eqb_spec a x); [lia|]. exact I1.
      + intros j N. destruct (a =? j); auto.
  Qed.

  Lemma step_h2 : forall m s q tk g c tr i e x r l, Live m s q tk g c tr -> c i = Run e (KH2 x r) l ->
    Live m (S s) q tk
      (CS D (c_stage D g) (c_queue D g) (c_arr D g) (c_subs D g ++ [(x, r)]) (c_outer D g) (c_refs D g) (c_nref D g) (c_ended D g) (c_late D g) (c_down D g))
      (upr c i (Run e (KH3 r) l)) tr.
  Proof.
    intros m s q tk g c tr i e x r l LV C. assert (T : istok (c i) = true) by now rewrite C.
    pose proof (tok_me _ _ _ _ _ _ _ i LV T) as ->.
    pose proof (v_ph _ _ _ _ _ _ _ LV i) as P. rewrite C in P. destruct P as (Pl & Pr & ST & Px & Ps & Pm).
    assert (LV' : Live m s q (TThr i) g (upr c i (Run e (KH2 x r) l)) tr).
    { eapply live_ext; [|exact LV]. intro j. uc j i; auto. }
    dl LV. destruct TK as [_ TU].
    assert (NT : forall j, j <> i -> istok (c j) = false).
    { intros j N. destruct (istok (c j)) eqn:E; auto. exfalso. auto. }
    constructor; gt; auto.
    - rewrite map_app, SU, seq_S. cbn. do 2 f_equal. lia.
    - lia.
    - intros j H. destruct (E2 j H) as [|[k1 X]]; auto. right. uc j i; eauto. rewrite C in X. injection X as -> _ ->. eauto.
    - intros j e1 k1. uc j i; eauto. intro X. injection X as -> _ ->. eauto.
    - intro j. uc j i.
      + cbn [ph c_stage ref_of]. repeat split; auto; try lia.
        * unfold ref_of. gt. destruct (find_seq (c_subs D g) 1 s x r SU ltac:(lia)) as [F _]. replace (S s) with x by lia. now rewrite F.
        * left. split; auto; lia.
      + eapply ph_other; [exact (PH j) | auto | auto | intros; lia | auto].
    - split; [unfold upd_run; rewrite Nat.eqb_refl; reflexivity|]. intro j. uc j i; auto.
    - intros r0 H. destruct (R1 r0 H) as [?|[j X]]; [discriminate|]. right. exists j. uc j i; auto.
      rewrite C in X. exact X.
    - intros a b r0 X Y. apply (v_r2 _ _ _ _ _ _ _ LV' a b r0); [revert X | revert Y]; [uc a i | uc b i]; auto.
    - intros j r0 X. apply (v_r6 _ _ _ _ _ _ _ LV' j r0). revert X. uc j i; auto.
    - intros H1 H2. destruct (W H1 H2) as [j X]. exists j. uc j i; auto. rewrite C in X. discriminate.
  Qed.

  Lemma step_h3 : forall m s q tk g c tr i e r l, Live m s q tk g c tr -> c i = Run e (KH3 r) l -> c_stage D g = SDrain ->
    exists tk', Live m s q tk' (with_stage D g SProc) (upr c i (Run e KFin l)) tr.
  Proof.
    intros m s q tk g c tr i e r l LV C ST. assert (T : istok (c i) = true) by now rewrite C.
    pose proof (tok_me _ _ _ _ _ _ _ i LV T) as ->.
    pose proof (v_ph _ _ _ _ _ _ _ LV i) as P. rewrite C in P. destruct P as (Pl & Pr & Ps & Pq & Pf & Pm).
    destruct Pm as [[_ Pm]|[? _]]; [|congruence]. destruct r as [r|]; [|congruence]. exists (TProc r).
    dl LV. destruct TK as [_ TU].
    assert (NT : forall j, j <> i -> istok (c j) = false).
    { intros j N. destruct (istok (c j)) eqn:E; auto. exfalso. auto. }
    assert (RN : forall j, j <> i -> rof (c j) <> Some r).
    { intros j N E. apply N. apply (R2 j i r E). now rewrite C. }
    constructor; gt; auto.
    - rewrite LT. reflexivity.
    - intros j H. destruct (E2 j H) as [|[k1 X]]; auto. right. uc j i; eauto. rewrite C in X. injection X as -> _ ->. eauto.
    - intros j e1 k1. uc j i; eauto. intro X. injection X as -> _ ->. eauto.
    - intro j. uc j i; [exact Pl|]. eapply ph_other; [exact (PH j) | auto | auto | auto | auto].
    - repeat split; auto.
      + apply (R6 i). now rewrite C.
      + intro j. uc j i; [discriminate | auto].
      + intro j. uc j i; auto.
    - intros r0 H. destruct (R1 r0 H) as [?|[j X]]; [discriminate|]. destruct (Nat.eq_dec j i) as [->|N].
      + left. rewrite C in X. cbn in X. congruence.
      + right. exists j. uc j i; [lia | auto].
    - intros a b r0. uc a i; uc b i; try discriminate. eauto.
    - intros j r0. uc j i; [discriminate | eauto].
    - intros H1 H2. destruct (W H1 H2) as [j X]. exists j. uc j i; auto. rewrite C in X. discriminate.
  Qed.

  Lemma step_pop : forall m s q tk g c tr i e r l x qu, Live m s q tk g c tr -> c i = Run e (KD2 r) l -> c_queue D g = x :: qu ->
    Live m s (S q) tk
      (CS D (c_stage D g) qu (c_arr D g) (c_subs D g) (c_outer D g) (c_refs D g) (c_nref D g) (c_ended D g) (c_late D g) (c_down D g))
      (upr c i (Run e (KH1 x r) l)) tr.
  Proof.
    intros m s q tk g c tr i e r l x qu LV C Q. assert (T : istok (c i) = true) by now rewrite C.
    pose proof (tok_me _ _ _ _ _ _ _ i LV T) as ->.
    pose proof (v_ph _ _ _ _ _ _ _ LV i) as P. rewrite C in P. destruct P as (Pl & Pr & ST & Ps & Pm).
    assert (LV' : Live m s q (TThr i) g (upr c i (Run e (KD2 r) l)) tr).
    { eapply live_ext; [|exact LV]. intro j. uc j i; auto. }
    dl LV. destruct TK as [_ TU].
    assert (NT : forall j, j <> i -> istok (c j) = false).
    { intros j N. destruct (istok (c j)) eqn:E; auto. exfalso. auto. }
    rewrite Q in QU. destruct (c_arr D g - q) as [|d] eqn:DQ; [discriminate|]. cbn in QU. injection QU as -> ->.
    constructor; gt; auto.
    - f_equal. lia.
    - lia.
    - intros j H. destruct (E2 j H) as [|[k1 X]]; auto. right. uc j i; eauto. rewrite C in X. injection X as -> _ ->. eauto.
    - intros j e1 k1. uc j i; eauto. intro X. injection X as -> _ ->. eauto.
    - intro j. uc j i.
      + cbn. repeat split; auto; lia.
      + eapply ph_other; [exact (PH j) | auto | auto | auto | auto].
    - split; [unfold upd_run; rewrite Nat.eqb_refl; reflexivity|]. intro j. uc j i; auto.
    - intros r0 H. destruct (R1 r0 H) as [?|[j X]]; [discriminate|]. right. exists j. uc j i; auto.
      rewrite C in X. exact X.
    - intros a b r0 X Y. apply (v_r2 _ _ _ _ _ _ _ LV' a b r0); [revert X | revert Y]; [uc a i | uc b i]; auto.
    - intros j r0 X. apply (v_r6 _ _ _ _ _ _ _ LV' j r0). revert X. uc j i; auto.
    - intros H1 H2. destruct (W H1 H2) as [j X]. exists j. uc j i; auto. rewrite C in X. discriminate.
  Qed.

  Lemma step_d3 : forall m s q tk g c tr i e r l, Live m s q tk g c tr -> c i = Run e (KD3 r) l -> c_queue D g = [] ->
    Live m s q TNone (with_stage D g SNone) (upr c i (Run e (KD4 r) l)) tr.
  Proof.
    intros m s q tk g c tr i e r l LV C Q. assert (T : istok (c i) = true) by now rewrite C.
    pose proof (tok_me _ _ _ _ _ _ _ i LV T) as ->.
    pose proof (v_ph _ _ _ _ _ _ _ LV i) as P. rewrite C in P. destruct P as (Pl & Pr & ST & Ps & Pm).
    assert (LV' : Live m s q (TThr i) g (upr c i (Run e (KD3 r) l)) tr).
    { eapply live_ext; [|exact LV]. intro j. uc j i; auto. }
    dl LV. destruct TK as [_ TU].
    assert (NT : forall j, j <> i -> istok (c j) = false).
    { intros j N. destruct (istok (c j)) eqn:E; auto. exfalso. auto. }
    rewrite Q in QU. destruct (c_arr D g - q) as [|d] eqn:DQ; [|discriminate].
    constructor; gt; auto.
    - rewrite LT, Q. reflexivity.
    - now rewrite DQ, Q.
    - intros j H. destruct (E2 j H) as [|[k1 X]]; auto. right. uc j i; eauto. rewrite C in X. injection X as -> _ ->. eauto.
    - intros j e1 k1. uc j i; eauto. intro X. injection X as -> _ ->. eauto.
    - intro j. uc j i.
      + cbn. auto.
      + eapply ph_other; [exact (PH j) | auto | auto | auto | auto].
    - repeat split; auto; try lia. intro j. uc j i; auto.
    - intros r0 H. destruct (R1 r0 H) as [?|[j X]]; [discriminate|]. right. exists j. uc j i; auto.
      rewrite C in X. exact X.
    - intros a b r0 X Y. apply (v_r2 _ _ _ _ _ _ _ LV' a b r0); [revert X | revert Y]; [uc a i | uc b i]; auto.
    - intros j r0 X. apply (v_r6 _ _ _ _ _ _ _ LV' j r0). revert X. uc j i; auto.
    - intros H1 H2. destruct (W H1 H2) as [j X]. exists j. uc j i; auto. rewrite C in X. discriminate.
  Qed.

  Lemma step_d4 : forall m s q tk g c tr i e r l, Live m s q tk g c tr -> c i = Run e (KD4 r) l ->
    Live m s q tk
      (CS D (c_stage D g) (c_queue D g) (c_arr D g) (c_subs D g) (c_outer D g)
                 (match r with Some x => filter (fun y => negb (y =? x)) (c_refs D g) | None => c_refs D g end)
                 (c_nref D g) (c_ended D g) (c_late D g) (c_down D g))
      (upr c i (Run e KD5 l)) tr.
  Proof.
    intros m s q tk g c tr i e r l LV C.
    pose proof (v_ph _ _ _ _ _ _ _ LV i) as P. rewrite C in P. destruct P as (Pl & Pr). destruct r as [r|]; [|congruence].
    dl LV.
    assert (TI : forall j, istok (upr c i (Run e KD5 l) j) = istok (c j)).
    { intro j. uc j i; auto. now rewrite C. }
    assert (RN : forall j r0, j <> i -> rof (c j) = Some r0 -> r0 <> r).
    { intros j r0 N E ->. apply N. apply (R2 j i r E). now rewrite C. }
    assert (IN : forall r0, In r0 (c_refs D g) -> r0 <> r -> In r0 (filter (fun y => negb (y =? r)) (c_refs D g))).
    { intros r0 I N. apply filter_In. split; auto. destruct (Nat.eqb_spec r0 r); auto. }
    constructor; gt; auto.
    - intros j H. destruct (E2 j H) as [|[k1 X]]; auto. right. uc j i; eauto. rewrite C in X. injection X as -> _ ->. eauto.
    - intros j e1 k1. uc j i; eauto. intro X. injection X as -> _ ->. eauto.
    - intro j. uc j i; [exact Pl|]. eapply ph_same; [exact (PH j) | reflexivity | reflexivity | auto | auto |]. intros O RE. cbn. rewrite RE. auto.
    - destruct tk.
      + destruct TK as (? & ? & ? & ? & X). repeat split; auto. intro j. rewrite TI. auto.
      + destruct TK as (? & ? & ? & ? & X & Y & Z). repeat split; auto.
        * apply IN; auto. intros ->. apply (Y i). now rewrite C.
        * intro j. uc j i; [discriminate | auto].
        * intro j. rewrite TI. auto.
      + destruct TK as [T1 T2]. rewrite TI. split; auto. intros j H. rewrite TI in H. auto.
    - intros r0 H. apply filter_In in H as [H N]. destruct (R1 r0 H) as [|[j X]]; auto. right. exists j. uc j i; auto.
      rewrite C in X. cbn in X. injection X as ->. rewrite Nat.eqb_refl in N. discriminate.
    - intros a b r0. uc a i; uc b i; try discriminate. eauto.
    - intros r0 H. apply filter_In in H as [H N]. auto.
    - intros j r0. uc j i; [discriminate|]. intro E. apply IN; eauto.
    - intros _ _. exists i. unfold upd_run; rewrite Nat.eqb_refl; reflexivity.
  Qed.

  Lemma ndone_live : forall m s q tk g c tr, Live m s q tk g c tr -> ndone (live (lins tr)) = m.
  Proof.
    intros m s q tk g c tr LV. dl LV. apply ndone_m; [lia|]. intros j H. rewrite CO, EN. destruct (Nat.eqb_spec j 0); [lia | reflexivity].
  Qed.
  Lemma out_inner : forall m s q tk g c tr e, Live m s q tk g c tr -> S m = s ->
    concat_out (live (lins tr)) s e = match e with
                                      | Next (inr v) => [Next v]
                                      | Next (inl _) => []
                                      | Err x => [Err x]
                                      | Done => if negb (c_outer D g) && (s =? c_arr D g) then [Done] else []
                                      end.
  Proof.
    intros m s q tk g c tr e LV E. pose proof (ndone_live _ _ _ _ _ _ _ LV) as ND. dl LV. unfold concat_out.
    rewrite ND, NN, CO, EN. subst s. cbn [Nat.eqb]. rewrite Nat.eqb_refl. rewrite (proj2 (Nat.leb_le _ _)) by lia. reflexivity.
  Qed.
  Lemma not_ended : forall m s q tk g c tr i, Live m s q tk g c tr -> (i = 0 /\ c_outer D g = true) \/ (1 <= i /\ i = s /\ S m = s) ->
    endedb i (live (lins tr)) = false.
  Proof.
    intros m s q tk g c tr i LV H. rewrite (v_end _ _ _ _ _ _ _ LV). destruct H as [[-> ->]|(H1 & H2 & H3)]; auto.
    destruct (Nat.eqb_spec i 0); [lia|]. apply Nat.leb_gt. lia.
  Qed.

  Definition dead (g : cst D) (tr : list (alab (unit + V))) : Prop := mdisp D (c_down D g) = true /\ c_down D g = dd tr.

  Lemma step_out_err : forall m s q tk g c tr i x l, Live m s q tk g c tr -> c i = Run (Err x) (KOut (Err x)) l ->
    mdisp D (mstep D (c_down D g) (Err x)) = true /\ mstep D (c_down D g) (Err x) = dd (tr ++ [Lin i (Err x)]).
  Proof.
    intros m s q tk g c tr i x l LV C. pose proof (v_ph _ _ _ _ _ _ _ LV i) as P. rewrite C in P. destruct P as [_ P].
    split; [now apply (law_term _ L)|].
    assert (X : (i = 0 /\ c_outer D g = true) \/ (1 <= i /\ i = s /\ S m = s)) by (destruct P as [(? & ? & _)|(? & ? & ? & _)]; auto).
    rewrite dd_lin, (not_ended _ _ _ _ _ _ _ i LV X), (v_down _ _ _ _ _ _ _ LV). destruct X as [[-> O]|(H1 & H2 & H3)].
    - rewrite O. reflexivity.
    - rewrite H2. rewrite (out_inner _ _ _ _ _ _ _ _ LV H3).
      pose proof (v_ord _ _ _ _ _ _ _ LV). destruct (Nat.eqb_spec m (c_arr D g)); [lia|]. now rewrite andb_false_r.
  Qed.

  Lemma step_out_next : forall m s q tk g c tr i v l, Live m s q tk g c tr -> c i = Run (Next (inr v)) (KOut (Next v)) l ->
    let g' := CS D (c_stage D g) (c_queue D g) (c_arr D g) (c_subs D g) (c_outer D g) (c_refs D g) (c_nref D g) (c_ended D g) (c_late D g) (mstep D (c_down D g) (Next v)) in
    mstep D (c_down D g) (Next v) = dd (tr ++ [Lin i (Next (inr v))]) /\
    (mdisp D (mstep D (c_down D g) (Next v)) = false ->
     Live m s q tk g' (upr c i (Run (Next (inr v)) KFin true)) (tr ++ [Lin i (Next (inr v))])).
  Proof.
    intros m s q tk g c tr i v l LV C g'. pose proof (v_ph _ _ _ _ _ _ _ LV i) as P. rewrite C in P. destruct P as [_ P].
    destruct P as [(_ & _ & x & ? & _)|(H1 & H2 & H3 & _)]; [discriminate|].
    assert (EI : endedb i (live (lins tr)) = false) by (eapply not_ended; eauto).
    assert (DN' : mstep D (c_down D g) (Next v) = dd (tr ++ [Lin i (Next (inr v))])).
    { rewrite dd_lin, EI, (v_down _ _ _ _ _ _ _ LV), H2, (out_inner _ _ _ _ _ _ _ _ LV H3).
      pose proof (v_ord _ _ _ _ _ _ _ LV). destruct (Nat.eqb_spec m (c_arr D g)); [lia|]. now rewrite andb_false_r. }
    split; auto. intro AL'. dl LV. unfold g'.
    assert (HL : forall j, endedb j (live (lins (tr ++ [Lin i (Next (@inr unit V v))]))) = endedb j (live (lins tr)) /\
              completed j (live (lins (tr ++ [Lin i (Next (inr v))]))) = completed j (live (lins tr))).
    { intro j. rewrite live_lin, EI, endedb_app, completed_app. cbn. rewrite !andb_false_r, !orb_false_r. auto. }
    assert (TI : forall j, istok (upr c i (Run (Next (inr v)) KFin true) j) = istok (c j)).
    { intro j. uc j i; auto. now rewrite C. }
    assert (RI : forall j, rof (upr c i (Run (Next (inr v)) KFin true) j) = rof (c j)).
    { intro j. uc j i; auto. now rewrite C. }
    constructor; gt; auto.
    - rewrite live_lin, EI, opened_app, NN. unfold opened. cbn. rewrite andb_false_r. cbn. lia.
    - intro j. destruct (HL j) as [-> _]. auto.
    - intro j. destruct (HL j) as [-> ->]. auto.
    - rewrite <- DN'. destruct (Nat.eqb_spec m (c_arr D g)); [lia|]. now rewrite andb_false_r.
    - intros j H. destruct (E2 j H) as [|[k1 X]]; auto. right. uc j i; eauto. rewrite C in X. discriminate.
    - intros j e1 k1. uc j i; eauto. intro X. injection X as <- _. discriminate.
    - intro j. uc j i; [reflexivity|]. eapply ph_same; [exact (PH j) | reflexivity | reflexivity | auto | auto | auto].
    - destruct tk.
      + destruct TK as (? & ? & ? & ? & X). repeat split; auto. intro j. rewrite TI. auto.
      + destruct TK as (? & ? & ? & ? & X & Y & Z). repeat split; auto; intro j; rewrite ?TI, ?RI; auto.
      + destruct TK as [T1 T2]. rewrite TI. split; auto. intros j H. rewrite TI in H. auto.
    - intros r H. destruct (R1 r H) as [|[j X]]; auto. right. exists j. now rewrite RI.
    - intros a b r. rewrite !RI. eauto.
    - intros j r. rewrite RI. eauto.
    - intros X Y. destruct (W X Y) as [j Z]. exists j. uc j i; auto. rewrite C in Z. discriminate.
  Qed.

  (** The current observable completes. *)
  Lemma hist_done : forall m s q tk g c tr i, Live m s q tk g c tr -> (i = 0 /\ c_outer D g = true) \/ (1 <= i /\ i = s /\ S m = s) ->
    opened (live (lins (tr ++ [Lin i (@Done (unit + V))]))) = c_arr D g /\
    (forall j, endedb j (live (lins (tr ++ [Lin i Done]))) = endedb j (live (lins tr)) || (j =? i)) /\
    (forall j, completed j (live (lins (tr ++ [Lin i Done]))) = endedb j (live (lins (tr ++ [Lin i Done])))).
  Proof.
    intros m s q tk g c tr i LV H. assert (EI : endedb i (live (lins tr)) = false) by (eapply not_ended; eauto). dl LV.
    rewrite live_lin, EI. split; [|split].
    - rewrite opened_app, NN. unfold opened. cbn. rewrite andb_false_r. cbn. lia.
    - intro j. rewrite endedb_app. cbn. rewrite andb_true_r, orb_false_r. now rewrite (Nat.eqb_sym i j).
    - intro j. rewrite endedb_app, completed_app, CO. cbn. reflexivity.
  Qed.

  Lemma step_i1 : forall m s q tk g c tr i l, Live m s q tk g c tr -> c i = Run Done KI1 l ->
    match c_stage D g with
    | SDrain => exists m' s' q' tk', Live m' s' q' tk' (with_stage D g SCompl) (upr c i (Run Done KFin true)) (tr ++ [Lin i Done])
    | SProc => exists r, ref_of D g i = Some r /\ exists m' s' q' tk', Live m' s' q' tk' g (upr c i (Run Done (KD1 r) true)) (tr ++ [Lin i Done])
    | _ => False
    end.
  Proof.
    intros m s q tk g c tr i l LV C. pose proof (v_ph _ _ _ _ _ _ _ LV i) as P. rewrite C in P. destruct P as (_ & H1 & H2 & H3 & _).
    destruct (hist_done _ _ _ _ _ _ _ i LV ltac:(auto)) as (HN & HE & HC).
    assert (DN' : dd (tr ++ [Lin i Done]) = mrun D (c_down D g) (if negb (c_outer D g) && (s =? c_arr D g) then [Done] else [])).
    { rewrite dd_lin, (not_ended _ _ _ _ _ _ _ i LV ltac:(auto)), (v_down _ _ _ _ _ _ _ LV).
      pose proof (v_ord _ _ _ _ _ _ _ LV). destruct (Nat.eqb_spec m (c_arr D g)); [lia|]. rewrite andb_false_r.
      rewrite H2, (out_inner _ _ _ _ _ _ _ _ LV H3). reflexivity. }
    assert (EN' : forall j, endedb j (live (lins (tr ++ [Lin i Done]))) = if j =? 0 then negb (c_outer D g) else j <=? s).
    { intro j. rewrite HE, (v_end _ _ _ _ _ _ _ LV). destruct (Nat.eqb_spec j 0) as [->|N].
      - destruct (Nat.eqb_spec 0 i); [lia|]. apply orb_false_r.
      - destruct (Nat.leb_spec j m), (Nat.leb_spec j s), (Nat.eqb_spec j i); auto; lia. }
    destruct tk as [|r|t].
    - pose proof (v_tok _ _ _ _ _ _ _ LV) as (_ & _ & ? & _). lia.
    - pose proof (v_tok _ _ _ _ _ _ _ LV) as (ST & Tq & _ & TR & TI & TN & TT). rewrite ST. exists (Some r). split; [now rewrite H2|].
      exists s, s, q, (TThr i). dl LV. constructor; gt; auto.
      + lia.
      + intros j X. apply E1 in X. lia.
      + intros j X. destruct (Nat.eq_dec j i) as [->|N].
        * right. exists (KD1 (Some r)). unfold upd_run. rewrite Nat.eqb_refl. reflexivity.
        * destruct (E2 j ltac:(lia)) as [|[k Y]]; auto. right. exists k. uc j i; [lia | auto].
      + intros j e1 k1. uc j i; [lia|]. intros X Y Z. specialize (L1 _ _ _ X Y Z). lia.
      + intro j. uc j i.
        * cbn. rewrite ST. repeat split; auto; discriminate.
        * eapply ph_other; [exact (PH j) | auto | auto | intros; lia | auto].
      + split; [unfold upd_run; rewrite Nat.eqb_refl; reflexivity|]. intro j. uc j i; auto. rewrite TT. discriminate.
      + intros r0 X. destruct (R1 r0 X) as [E|[j Y]].
        * injection E as <-. right. exists i. unfold upd_run. rewrite Nat.eqb_refl. reflexivity.
        * right. exists j. uc j i; auto. rewrite C in Y. discriminate.
      + intros a b r0. uc a i; uc b i; auto; cbn.
        * intros X Y. exfalso. apply (TN b). congruence.
        * intros Y X. exfalso. apply (TN a). congruence.
        * eauto.
      + intros j r0. uc j i; [|eauto]. cbn. intro X. injection X as <-. auto.
      + intros _ X. rewrite X in TI. destruct TI.
    - pose proof (v_tok _ _ _ _ _ _ _ LV) as (T1 & T2). pose proof (v_ph _ _ _ _ _ _ _ LV t) as Pt.
      assert (NT : t <> i) by (intros ->; rewrite C in T1; discriminate).
      destruct (c t) as [|et kt lt] eqn:CT; [discriminate|].
      destruct kt as [| | |x|x r|x r|r|r|r|r|r| | |p| | |]; try discriminate; cbn [ph] in Pt; repeat match goal with H : _ /\ _ |- _ => destruct H end; try lia.
      assert (ST : c_stage D g = SDrain) by (match goal with H : _ \/ _ |- _ => destruct H as [[? _]|[_ ?]]; [auto | lia] end).
      rewrite ST. exists s, s, q, (TThr t). dl LV.
      assert (TI : forall j, istok (upr c i (Run Done KFin true) j) = istok (c j)).
      { intro j. uc j i; auto. now rewrite C. }
      assert (RI : forall j, rof (upr c i (Run Done KFin true) j) = rof (c j)).
      { intro j. uc j i; auto. now rewrite C. }
      constructor; gt; auto.
      + now rewrite LT.
      + lia.
      + intros j X. apply E1 in X. lia.
      + intros j X. destruct (Nat.eq_dec j i) as [->|N].
        * right. exists KFin. unfold upd_run. rewrite Nat.eqb_refl. reflexivity.
        * destruct (E2 j ltac:(lia)) as [|[k Y]]; auto. right. exists k. uc j i; [lia | auto].
      + intros j e1 k1. uc j i; [lia|]. intros X Y Z. specialize (L1 _ _ _ X Y Z). lia.
      + intro j. uc j i; [reflexivity|]. destruct (Nat.eq_dec j t) as [->|N].
        * rewrite CT. cbn [ph]. repeat split; auto.
        * eapply ph_other; [exact (PH j) | | auto | intros; lia | auto].
          destruct (istok (c j)) eqn:E; auto. exfalso. auto.
      + rewrite TI, CT. split; auto. intros j X. rewrite TI in X. auto.
      + intros r0 X. destruct (R1 r0 X) as [?|[j Y]]; [discriminate|]. right. exists j. now rewrite RI.
      + intros a b r0. rewrite !RI. eauto.
      + intros j r0. rewrite RI. eauto.
      + intros X Y. destruct (W X Y) as [j Z]. exists j. uc j i; auto. rewrite C in Z. discriminate.
  Qed.

  (** The outer source completes. *)
  Lemma step_od : forall m s q tk g c tr l, Live m s q tk g c tr -> c 0 = Run Done KOd l ->
    Live m s q tk
      (CS D (c_stage D g) (c_queue D g) (c_arr D g) (c_subs D g) false (c_refs D g) (c_nref D g) (c_ended D g) (c_late D g) (c_down D g))
      (upr c 0 (Run Done KD5 true)) (tr ++ [Lin 0 Done]).
  Proof.
    intros m s q tk g c tr l LV C. pose proof (v_ph _ _ _ _ _ _ _ LV 0) as P. rewrite C in P. destruct P as (_ & _ & _ & OU).
    destruct (hist_done _ _ _ _ _ _ _ 0 LV ltac:(auto)) as (HN & HE & HC).
    assert (DN' : dd (tr ++ [Lin 0 Done]) = mrun D (c_down D g) (if m =? c_arr D g then [Done] else [])).
    { rewrite dd_lin, (not_ended _ _ _ _ _ _ _ 0 LV ltac:(auto)), (v_down _ _ _ _ _ _ _ LV), OU. cbn [negb andb mrun concat_out Nat.eqb].
      rewrite (ndone_live _ _ _ _ _ _ _ LV), (v_n _ _ _ _ _ _ _ LV). reflexivity. }
    dl LV.
    assert (TI : forall j, istok (upr c 0 (Run Done KD5 true) j) = istok (c j)).
    { intro j. uc j 0; auto. now rewrite C. }
    assert (RI : forall j, rof (upr c 0 (Run Done KD5 true) j) = rof (c j)).
    { intro j. uc j 0; auto. now rewrite C. }
    constructor; gt; auto.
    - intro j. rewrite HE, EN. destruct (Nat.eqb_spec j 0) as [->|N]; cbn [negb]; [apply orb_true_r | apply orb_false_r].
    - intros j H. destruct (E2 j H) as [|[k1 X]]; auto. right. uc j 0; eauto.
    - intros j e1 k1. uc j 0; eauto. intros _ _ ?. lia.
    - intro j. uc j 0; [reflexivity|]. eapply ph_same; [exact (PH j) | reflexivity | reflexivity | intro; lia | auto |]. congruence.
    - destruct tk.
      + destruct TK as (? & ? & ? & ? & X). repeat split; auto. intro j. rewrite TI. auto.
      + destruct TK as (? & ? & ? & ? & X & Y & Z). repeat split; auto; intro j; rewrite ?TI, ?RI; auto.
      + destruct TK as [T1 T2]. rewrite TI. split; auto. intros j H. rewrite TI in H. auto.
    - intros r H. destruct (R1 r H) as [|[j X]]; auto. right. exists j. now rewrite RI.
    - intros a b r. rewrite !RI. eauto.
    - intros j r. rewrite RI. eauto.
    - intros _ _. exists 0. reflexivity.
  Qed.

  Lemma step_d6 : forall m s q tk g c tr i e l, Live m s q tk g c tr -> c i = Run e KD6 l ->
    mdisp D (mstep D (c_down D g) Done) = true /\ mstep D (c_down D g) Done = dd tr.
  Proof.
    intros m s q tk g c tr i e l LV C. pose proof (v_ph _ _ _ _ _ _ _ LV i) as P. rewrite C in P. destruct P as (_ & O & R).
    split; [now apply (law_term _ L)|]. rewrite (v_down _ _ _ _ _ _ _ LV), O.
    destruct (refs_none _ _ _ _ _ _ _ LV R) as [->|(t & e1 & x & l1 & -> & CT)].
    - pose proof (v_tok _ _ _ _ _ _ _ LV) as (_ & ? & ? & ? & _). rewrite (proj2 (Nat.eqb_eq _ _)) by lia. reflexivity.
    - pose proof (v_ph _ _ _ _ _ _ _ LV t) as P. rewrite CT in P. destruct P as (_ & _ & ? & _). congruence.
  Qed.

  (** Returning. *)
  Lemma live_vis : forall m s q tk g c tr x, Live m s q tk g c tr -> Live m s q tk g c (tr ++ [Vis x]).
  Proof. intros m s q tk g c tr x LV. dl LV. constructor; rewrite ?lins_vis, ?dd_vis; auto. Qed.
  Lemma step_fin : forall m s q tk g c tr i e l, Live m s q tk g c tr -> c i = Run e KFin l ->
    Live m s q tk
     (CS D (c_stage D g) (c_queue D g) (c_arr D g) (c_subs D g) (c_outer D g) (c_refs D g) (c_nref D g)
                 (if is_term e && negb (i =? 0) then i :: c_ended D g else c_ended D g) (c_late D g) (c_down D g))
     (upr c i Idle) tr.
  Proof.
    intros m s q tk g c tr i e l LV C. pose proof (v_ph _ _ _ _ _ _ _ LV i) as P. rewrite C in P. cbn in P. subst l.
    dl LV.
    assert (TI : forall j, istok (upr c i Idle j) = istok (c j)).
    { intro j. uc j i; auto. now rewrite C. }
    assert (RI : forall j, rof (upr c i Idle j) = rof (c j)).
    { intro j. uc j i; auto. now rewrite C. }
    constructor; gt; auto.
    - intros j H. destruct (is_term e) eqn:TE, (Nat.eqb_spec i 0); cbn [negb andb] in H; auto. destruct H as [<-|H]; auto.
      split; [lia|]. apply (L1 _ _ _ C TE). lia.
    - intros j H. destruct (E2 j H) as [X|[k1 X]].
      + left. destruct (is_term e && negb (i =? 0)); [now right | auto].
      + destruct (Nat.eq_dec j i) as [->|N].
        * left. rewrite C in X. injection X as -> _. cbn. destruct (Nat.eqb_spec i 0); [lia|]. now left.
        * right. exists k1. uc j i; [lia | auto].
    - intros j e1 k1. uc j i; [discriminate | eauto].
    - intro j. uc j i; [exact I|]. eapply ph_same; [exact (PH j) | reflexivity | reflexivity | auto | auto | auto].
    - destruct tk.
      + destruct TK as (? & ? & ? & ? & X). repeat split; auto. intro j. rewrite TI. auto.
      + destruct TK as (? & ? & ? & ? & X & Y & Z). repeat split; auto; intro j; rewrite ?TI, ?RI; auto.
      + destruct TK as [T1 T2]. rewrite TI. split; auto. intros j H. rewrite TI in H. auto.
    - intros r H. destruct (R1 r H) as [|[j X]]; auto. right. exists j. now rewrite RI.
    - intros a b r. rewrite !RI. eauto.
    - intros j r. rewrite RI. eauto.
    - intros X Y. destruct (W X Y) as [j Z]. exists j. uc j i; auto. rewrite C in Z. discriminate.
  Qed.
  Lemma step_gate : forall m s q tk g c tr i e, Live m s q tk g c tr -> c i = Run e K0 false ->
    endedb i (live (lins tr)) = true -> Live m s q tk g (upr c i Idle) (tr ++ [Lin i e]).
  Proof.
    intros m s q tk g c tr i e LV C E. dl LV.
    assert (TI : forall j, istok (upr c i Idle j) = istok (c j)).
    { intro j. uc j i; auto. now rewrite C. }
    assert (RI : forall j, rof (upr c i Idle j) = rof (c j)).
    { intro j. uc j i; auto. now rewrite C. }
    assert (LH : live (lins (tr ++ [Lin i e])) = live (lins tr)) by (rewrite live_lin, E; apply app_nil_r).
    constructor; rewrite ?LH; auto.
    - rewrite dd_lin, E. exact DN.
    - intros j H. destruct (E2 j H) as [X|[k1 X]]; auto. right. exists k1. uc j i; auto. rewrite C in X. discriminate.
    - intros j e1 k1. uc j i; [discriminate | eauto].
    - intro j. uc j i; [exact I | auto].
    - destruct tk.
      + destruct TK as (? & ? & ? & ? & X). repeat split; auto. intro j. rewrite TI. auto.
      + destruct TK as (? & ? & ? & ? & X & Y & Z). repeat split; auto; intro j; rewrite ?TI, ?RI; auto.
      + destruct TK as [T1 T2]. rewrite TI. split; auto. intros j H. rewrite TI in H. auto.
    - intros r H. destruct (R1 r H) as [|[j X]]; auto. right. exists j. now rewrite RI.
    - intros a b r. rewrite !RI. eauto.
    - intros j r. rewrite RI. eauto.
    - intros X Y. destruct (W X Y) as [j Z]. exists j. uc j i; auto. rewrite C in Z. discriminate.
  Qed.

  (** What subscribed observables are. *)
  Lemma ref_seq : forall (l : list (nat * option nat)) a n j x, map fst l = seq a n -> find (fun y => fst y =? j) l = Some x -> a <= j < a + n.
  Proof.
    intros l a n j x H F. apply find_some in F as [F1 F2]. apply Nat.eqb_eq in F2. apply (in_map fst) in F1. rewrite H, F2 in F1.
    apply in_seq in F1. lia.
  Qed.

  Notation stp := (cstep D).
  Lemma late_keeps : forall g i e k g' r, stp g i e k = Some (g', r) -> c_late D g = true -> c_late D g' = true.
  Proof.
    intros g i e k g' r H LT.
    destruct k; cbn [cstep] in H;
      repeat match type of H with context [match ?x with _ => _ end] => destruct x end;
      try discriminate; injection H as <- _; cbn [c_late with_stage]; rewrite ?LT; auto.
  Qed.
  Lemma dead_keeps : forall g i e k g' r, stp g i e k = Some (g', r) -> mdisp D (c_down D g) = true -> c_down D g' = c_down D g.
  Proof.
    intros g i e k g' r H DE.
    destruct k; cbn [cstep] in H;
      repeat match type of H with context [match ?x with _ => _ end] => destruct x end;
      try discriminate; injection H as <- _; cbn [c_down with_stage]; auto; now apply (law_dead _ L).
  Qed.
  Lemma dead_lin : forall tr i e, mdisp D (dd tr) = true -> dd (tr ++ [Lin i e]) = dd tr.
  Proof. intros tr i e H. rewrite dd_lin. now apply mrun_dead. Qed.

  Notation lmove := (@lmove (@cpc V) (unit + V)).
  (** Results of a step in the live mode. *)
  Definition stepped (g' : cst D) (c : nat -> @cact (@cpc V) (unit + V)) (tr : list (alab (unit + V))) i e k k' : Prop :=
    exists c' tr' l', lmove c c' tr tr' /\ c' i = Run e k l' /\ JX g' (upr c' i (Run e k' l')) tr'.
  Lemma st_plain : forall g' c tr i e k k' l, c i = Run e k l -> JX g' (upr c i (Run e k' l)) tr -> stepped g' c tr i e k k'.
  Proof. intros g' c tr i e k k' l C X. exists c, tr, l. split; [apply lmove_refl|]. auto. Qed.
  Lemma JX_ext : forall g c c' tr, (forall j, c' j = c j) -> JX g c tr -> JX g c' tr.
  Proof.
    intros g c c' tr E [X|[X|(m & s & q & tk & X)]]; [now left | right; now left | right; right].
    exists m, s, q, tk. eapply live_ext; eauto.
  Qed.
  Lemma st_lin : forall g' c tr i e k k', c i = Run e k false -> JX g' (upr c i (Run e k' true)) (tr ++ [Lin i e]) -> stepped g' c tr i e k k'.
  Proof.
    intros g' c tr i e k k' C X. exists (upr c i (Run e k true)), (tr ++ [Lin i e]), true.
    split; [now apply lmove_lin|]. split; [unfold upd_run; now rewrite Nat.eqb_refl|].
    eapply JX_ext; [|exact X]. intro j. apply upr_twice.
  Qed.
  Lemma jx_live : forall m s q tk g c tr, Live m s q tk g c tr -> JX g c tr.
  Proof. intros. right. right. eauto. Qed.

  Lemma JX_step : forall g c tr i e k l g' k', JX g c tr -> c i = Run e k l -> stp g i e k = Some (g', Some k') ->
    stepped g' c tr i e k k'.
  Proof.
    intros g c tr i e k l g' k' HJ C ST0. destruct HJ as [LA|[[DE DD]|(m & s & q & tk & LV)]].
    { eapply st_plain; eauto. left. eapply late_keeps; eauto. }
    { eapply st_plain; eauto. right. left. rewrite (dead_keeps _ _ _ _ _ _ ST0 DE). auto. }
    pose proof (v_ph _ _ _ _ _ _ _ LV i) as P. rewrite C in P. cbn [ph] in P.
    pose proof (mdisposed _ _ _ _ _ _ _ LV) as MD.
    destruct k as [| | |x|x r|x r|r|r|r|r|r| | |p| | |]; cbn [cstep] in ST0.
    - (* K0 *)
      subst l. destruct (Nat.eqb_spec i 0) as [->|NZ].
      + destruct (c_outer D g) eqn:OU; [|discriminate]. rewrite MD in ST0. cbn [negb orb andb] in ST0.
        destruct e as [[u|v]|x|]; injection ST0 as <- <-.
        * eapply st_plain; eauto. eapply jx_live, live_pc; [exact LV | exact C | | reflexivity | reflexivity | discriminate]. cbn. eauto 6.
        * apply st_lin; auto. eapply jx_live. eapply lin_nothing; [exact LV | exact C | | discriminate | reflexivity | reflexivity | reflexivity | reflexivity]. right. exists (inr v). auto.
        * eapply st_plain; eauto. eapply jx_live, live_pc; [exact LV | exact C | | reflexivity | reflexivity | discriminate]. cbn. eauto 8.
        * eapply st_plain; eauto. eapply jx_live, live_pc; [exact LV | exact C | | reflexivity | reflexivity | discriminate]. cbn. auto.
      + destruct (ref_of D g i) as [r|] eqn:RF; [|discriminate].
        destruct (existsb (Nat.eqb i) (c_ended D g) || gone D g r) eqn:GT; [discriminate|].
        apply orb_false_iff in GT as [G1 G2]. unfold gone in G2. apply orb_false_iff in G2 as [G2 G3].
        assert (CUR : 1 <= i /\ i = s /\ S m = s).
        { pose proof (v_ord _ _ _ _ _ _ _ LV). unfold ref_of in RF. destruct (find _ _) as [y|] eqn:F; [|discriminate].
          pose proof (ref_seq _ _ _ _ _ (v_subs _ _ _ _ _ _ _ LV) F) as RG.
          destruct (Nat.leb_spec i m) as [LE|GT]; [|lia]. exfalso.
          destruct (v_e2 _ _ _ _ _ _ _ LV i ltac:(lia)) as [X|[k X]]; [|congruence].
          assert (Y : existsb (Nat.eqb i) (c_ended D g) = true) by (apply existsb_exists; exists i; split; auto; apply Nat.eqb_refl). congruence. }
        destruct e as [[u|v]|x|]; injection ST0 as <- <-.
        * apply st_lin; auto. eapply jx_live. eapply lin_nothing; [exact LV | exact C | | discriminate | reflexivity | reflexivity | reflexivity | reflexivity]. right. exists (inl u). split; auto.
          destruct CUR as (C1 & C2 & C3). split; [rewrite C2; now rewrite (out_inner _ _ _ _ _ _ _ _ LV C3)|].
          unfold opened. cbn. destruct (Nat.eqb_spec i 0); [lia | reflexivity].
        * eapply st_plain; eauto. eapply jx_live, live_pc; [exact LV | exact C | | reflexivity | reflexivity | discriminate]. cbn. split; auto. right. destruct CUR as (C1 & C2 & C3). repeat split; auto. left. eauto.
        * eapply st_plain; eauto. eapply jx_live, live_pc; [exact LV | exact C | | reflexivity | reflexivity | discriminate]. cbn. split; auto. right. destruct CUR as (C1 & C2 & C3). repeat split; auto. right. eauto.
        * eapply st_plain; eauto. eapply jx_live, live_pc; [exact LV | exact C | | reflexivity | reflexivity | discriminate]. cbn. destruct CUR as (C1 & C2 & C3). auto.
    - (* KCas *)
      destruct P as (-> & -> & [u ->] & OU). destruct (c_stage D g) eqn:ST; cbn [is_none] in ST0; injection ST0 as <- <-.
      + apply st_lin; auto. eapply jx_live. eapply step_cas; eauto.
      + eapply st_plain; eauto. eapply jx_live, live_pc; [exact LV | exact C | | reflexivity | reflexivity | discriminate]. cbn. eauto 6.
      + eapply st_plain; eauto. eapply jx_live, live_pc; [exact LV | exact C | | reflexivity | reflexivity | discriminate]. cbn. eauto 6.
      + eapply st_plain; eauto. eapply jx_live, live_pc; [exact LV | exact C | | reflexivity | reflexivity | discriminate]. cbn. eauto 6.
    - (* KPush *)
      destruct P as (-> & -> & [u ->] & OU). injection ST0 as <- <-. apply st_lin; auto.
      destruct (is_none (c_stage D g)) eqn:ST.
      + left. cbn. apply orb_true_r.
      + rewrite <- ST. eapply jx_live. eapply step_push; eauto. intro X. rewrite X in ST. discriminate.
    - (* KRef *)
      destruct (step_ref _ _ _ _ _ _ _ _ _ _ _ LV C) as [X Y]. rewrite X in ST0. injection ST0 as <- <-.
      eapply st_plain; eauto. eapply jx_live; eauto.
    - injection ST0 as <- <-. eapply st_plain; eauto. eapply jx_live, step_h1; eauto.
    - injection ST0 as <- <-. eapply st_plain; eauto. eapply jx_live, step_h2; eauto.
    - (* KH3 *)
      destruct P as (P1 & P2 & P3 & P4 & P5 & P6). destruct (c_stage D g) eqn:ST; injection ST0 as <- <-.
      + destruct P6 as [[? _]|[? _]]; discriminate.
      + destruct (step_h3 _ _ _ _ _ _ _ _ _ _ _ LV C ST) as [tk' X]. eapply st_plain; eauto. eapply jx_live; eauto.
      + destruct P6 as [[? _]|[_ ?]]; [discriminate|]. eapply st_plain; eauto. eapply jx_live, live_pc; [exact LV | exact C | | reflexivity | reflexivity | discriminate].
        cbn. rewrite ST. repeat split; auto. discriminate.
      + destruct P6 as [[? _]|[? _]]; discriminate.
    - (* KD1 *)
      assert (ND : m_disposed D g = false).
      { rewrite MD. destruct P as (_ & P & _). destruct r as [r|]; [|congruence].
        pose proof (v_r6 _ _ _ _ _ _ _ LV i r) as I. rewrite C in I. specialize (I eq_refl). destruct (c_refs D g); [destruct I | apply andb_false_r]. }
      rewrite ND in ST0. injection ST0 as <- <-. eapply st_plain; eauto. eapply jx_live, live_pc; [exact LV | exact C | exact P | reflexivity | reflexivity | discriminate].
    - (* KD2 *)
      destruct (c_queue D g) as [|x qu] eqn:Q; injection ST0 as <- <-.
      + eapply st_plain; eauto. eapply jx_live, live_pc; [exact LV | exact C | exact P | reflexivity | reflexivity | discriminate].
      + eapply st_plain; eauto. eapply jx_live, step_pop; eauto.
    - (* KD3 *)
      injection ST0 as <- <-. eapply st_plain; eauto. destruct (c_queue D g) as [|x qu] eqn:Q.
      + eapply jx_live, step_d3; eauto.
      + left. cbn. rewrite Q. apply orb_true_r.
    - injection ST0 as <- <-. eapply st_plain; eauto. eapply jx_live, step_d4; eauto.
    - (* KD5 *)
      rewrite MD in ST0. subst l. destruct (c_outer D g) eqn:OU; cbn [negb andb] in ST0; [|destruct (c_refs D g) eqn:RE]; injection ST0 as <- <-.
      + eapply st_plain; eauto. eapply jx_live, live_pc; [exact LV | exact C | reflexivity | reflexivity | reflexivity |]. right. rewrite OU. intros [? _]. discriminate.
      + eapply st_plain; eauto. eapply jx_live, live_pc; [exact LV | exact C | | reflexivity | reflexivity | auto]. cbn. auto.
      + eapply st_plain; eauto. eapply jx_live, live_pc; [exact LV | exact C | reflexivity | reflexivity | reflexivity |]. right. rewrite RE. intros [_ ?]. discriminate.
    - (* KD6 *)
      injection ST0 as <- <-. eapply st_plain; eauto. right. left. cbn. eapply step_d6; eauto.
    - (* KOut *)
      injection ST0 as <- <-. destruct P as [-> P].
      assert (EE : (exists v, e = Next (inr v) /\ p = Next v) \/ (exists x, e = Err x /\ p = Err x)).
      { destruct P as [(_ & _ & X)|(_ & _ & _ & X)]; auto. }
      apply st_lin; auto. destruct EE as [(v & -> & ->)|(x & -> & ->)].
      + destruct (step_out_next _ _ _ _ _ _ _ _ _ _ LV C) as [X Y].
        destruct (mdisp D (mstep D (c_down D g) (Next v))) eqn:DE.
        * right. left. cbn. auto.
        * eapply jx_live; eauto.
      + right. left. cbn. eapply step_out_err; eauto.
    - (* KI1 *)
      destruct P as (-> & _ & _ & _ & ->). pose proof (step_i1 _ _ _ _ _ _ _ _ _ LV C) as X.
      destruct (c_stage D g) eqn:ST; [destruct X| |destruct X|].
      + injection ST0 as <- <-. destruct X as (m' & s' & q' & tk' & X). apply st_lin; auto. eapply jx_live; eauto.
      + destruct X as (r & RF & m' & s' & q' & tk' & X). rewrite RF in ST0. injection ST0 as <- <-. apply st_lin; auto. eapply jx_live; eauto.
    - (* KOd *)
      destruct P as (-> & -> & -> & _). injection ST0 as <- <-. apply st_lin; auto. eapply jx_live, step_od; eauto.
    - discriminate.
  Qed.

  Lemma JX_ret : forall g c tr i e k l g', JX g c tr -> c i = Run e k l -> stp g i e k = Some (g', None) ->
    exists c' tr', lmove c c' tr tr' /\ c' i = Run e k true /\ JX g' (upr c' i Idle) (tr' ++ [Vis (Ret i e)]).
  Proof.
    intros g c tr i e k l g' HJ C ST0.
    assert (EASY : (forall tr, dd tr = dd tr -> True) /\ (c_late D g = true \/ dead g tr) ->
      exists c' tr', lmove c c' tr tr' /\ c' i = Run e k true /\ JX g' (upr c' i Idle) (tr' ++ [Vis (Ret i e)])).
    { intros [_ X]. assert (Y : forall t2, dd t2 = dd tr -> JX g' (upr c i Idle) (t2 ++ [Vis (Ret i e)])).
      { intros t2 E. destruct X as [X|[X1 X2]].
        - left. eapply late_keeps; eauto.
        - right. left. rewrite (dead_keeps _ _ _ _ _ _ ST0 X1), dd_vis, E. auto. }
      destruct l.
      - exists c, tr. split; [apply lmove_refl|]. auto.
      - exists (upr c i (Run e k true)), (tr ++ [Lin i e]). split; [now apply lmove_lin|]. split; [unfold upd_run; now rewrite Nat.eqb_refl|].
        destruct X as [X|[X1 X2]].
        + left. eapply late_keeps; eauto.
        + right. left. rewrite (dead_keeps _ _ _ _ _ _ ST0 X1), dd_vis, dead_lin by congruence. auto. }
    destruct HJ as [LA|[DE|(m & s & q & tk & LV)]]; [apply EASY; auto | apply EASY; auto |]. clear EASY.
    pose proof (v_ph _ _ _ _ _ _ _ LV i) as P. rewrite C in P. cbn [ph] in P.
    pose proof (mdisposed _ _ _ _ _ _ _ LV) as MD.
    destruct k as [| | |x|x r|x r|r|r|r|r|r| | |p| | |]; cbn [cstep] in ST0;
      try (repeat match type of ST0 with context [match ?x with _ => _ end] => destruct x end; discriminate).
    - subst l. assert (G : g' = g /\ endedb i (live (lins tr)) = true).
      { rewrite (v_end _ _ _ _ _ _ _ LV). destruct (Nat.eqb_spec i 0) as [->|NZ].
        - rewrite MD in ST0. destruct (c_outer D g); cbn [negb orb andb] in *.
          + destruct e as [[u|v]|x|]; discriminate.
          + injection ST0 as <-. auto.
        - destruct (ref_of D g i) as [r|] eqn:RF; [|discriminate].
          destruct (existsb (Nat.eqb i) (c_ended D g) || gone D g r) eqn:GT; [|destruct e as [[u|v]|x|]; discriminate].
          injection ST0 as <-. split; auto. apply Nat.leb_le. apply orb_true_iff in GT as [GT|GT].
          + apply existsb_exists in GT as (y & I & E). apply Nat.eqb_eq in E. subst y. apply (v_e1 _ _ _ _ _ _ _ LV i I).
          + pose proof (v_ord _ _ _ _ _ _ _ LV). pose proof RF as RF'. unfold ref_of in RF. destruct (find _ _) as [y|] eqn:F; [|discriminate].
            pose proof (ref_seq _ _ _ _ _ (v_subs _ _ _ _ _ _ _ LV) F) as RG.
            destruct (Nat.leb_spec i m) as [LE|LT]; auto. exfalso. assert (X : S m = s) by lia. assert (Y : i = s) by lia.
            destruct (cur_ref _ _ _ _ _ _ _ LV X) as (r0 & E & I). rewrite <- Y, RF' in E. injection E as ->.
            unfold gone in GT. rewrite MD in GT. destruct (c_refs D g) as [|a b] eqn:RE; [destruct I|]. rewrite andb_false_r, orb_false_r in GT.
            apply negb_true_iff in GT. assert (Z : existsb (Nat.eqb r0) (a :: b) = true) by (apply existsb_exists; exists r0; split; auto; apply Nat.eqb_refl).
            congruence. }
      destruct G as [-> G]. exists (upr c i (Run e K0 true)), (tr ++ [Lin i e]). split; [now apply lmove_lin|].
      split; [unfold upd_run; now rewrite Nat.eqb_refl|].
      eapply JX_ext; [intro j; apply upr_twice|]. eapply jx_live, live_vis, step_gate; eauto.
    - subst l. injection ST0 as <-. exists c, tr. split; [apply lmove_refl|]. split; auto.
      eapply jx_live, live_vis, step_fin; eauto.
  Qed.

  Lemma JX_inv : forall g c tr i e, JX g c tr -> c i = Idle ->
    JX g (upr c i (Run e K0 false)) (tr ++ [Vis (Inv i e)]).
  Proof.
    intros g c tr i e [X|[X|(m & s & q & tk & LV)]] C; [now left | right; left; now rewrite dd_vis |].
    apply (jx_live m s q tk), live_vis. dl LV.
    assert (TI : forall j, istok (upr c i (Run e K0 false) j) = istok (c j)).
    { intro j. uc j i; auto. now rewrite C. }
    assert (RI : forall j, rof (upr c i (Run e K0 false) j) = rof (c j)).
    { intro j. uc j i; auto. now rewrite C. }
    constructor; auto.
    - intros j H. destruct (E2 j H) as [X|[k1 X]]; auto. right. exists k1. uc j i; auto. rewrite C in X. discriminate.
    - intros j e1 k1. uc j i; [discriminate | eauto].
    - intro j. uc j i; [reflexivity | auto].
    - destruct tk.
      + destruct TK as (? & ? & ? & ? & X). repeat split; auto. intro j. rewrite TI. auto.
      + destruct TK as (? & ? & ? & ? & X & Y & Z). repeat split; auto; intro j; rewrite ?TI, ?RI; auto.
      + destruct TK as [T1 T2]. rewrite TI. split; auto. intros j H. rewrite TI in H. auto.
    - intros r H. destruct (R1 r H) as [|[j X]]; auto. right. exists j. now rewrite RI.
    - intros a b r. rewrite !RI. eauto.
    - intros j r. rewrite RI. eauto.
    - intros X Y. destruct (W X Y) as [j Z]. exists j. uc j i; auto. rewrite C in Z. discriminate.
  Qed.

  Lemma JX_init : JX (c_init D d0) (fun _ => Idle) [].
  Proof.
    destruct (mdisp D d0) eqn:DE; [right; left; auto|]. right. right. exists 0, 0, 0, TNone. constructor; cbn; auto; try lia; try discriminate.
    all: try contradiction.
    all: try (intro j; destruct j; reflexivity).
    all: try (intros; lia).
    all: repeat split; auto.
  Qed.

  Theorem concat_linearizable : forall progs tr c,
    gexec (cistep K0 stp) (c_init D d0, cthreads progs) tr c ->
    exists h os, linearized progs tr h /\
      (c_late D (fst c) = false ->
         length os <= 1 /\ mrun D (c_down D (fst c)) os = mrun D d0 (outs concat_out h) /\
         (gfinished c -> os = []) /\
         (mdisp D (c_down D (fst c)) = false ->
            exists n, map fst (c_subs D (fst c)) = seq 1 n /\ n <= opened (live h) /\ forall j, 1 <= j < n -> completed j (live h) = true)).
  Proof.
    intros progs tr c X.
    destruct (lin_generic K0 stp progs JX JX_inv JX_step JX_ret (c_init D d0) JX_init tr c X) as (cu & tr' & E & J & PR & FN).
    assert (LI : linearized progs tr (lins tr')) by (exists tr'; repeat split; auto).
    destruct J as [LA|[[DE DD]|(m & s & q & tk & LV)]].
    - exists (lins tr'), []. split; auto. congruence.
    - exists (lins tr'), []. split; auto. intros _. repeat split; auto. congruence.
    - exists (lins tr'), (if negb (c_outer D (fst c)) && (m =? c_arr D (fst c)) then [Done] else []). split; auto. intros _.
      split; [destruct (_ && _); cbn; lia|]. split; [symmetry; apply (v_down _ _ _ _ _ _ _ LV)|]. split.
      + intro F. destruct (c_outer D (fst c)) eqn:OU; auto. cbn [negb andb]. destruct (Nat.eqb_spec m (c_arr D (fst c))) as [EQ|]; auto. exfalso. dl LV.
        assert (ID : forall j, cu j = Idle) by (intro j; apply (FN F j)).
        destruct (c_refs D (fst c)) as [|r rs] eqn:RE.
        * destruct (W OU eq_refl) as [j Y]. rewrite ID in Y. discriminate.
        * destruct (R1 r (or_introl eq_refl)) as [->|[j Y]]; [|rewrite ID in Y; discriminate].
          destruct TK as (_ & T1 & T2 & _). lia.
      + intros _. dl LV. exists s. split; auto. split; [lia|]. intros j H. rewrite CO, EN.
        destruct (Nat.eqb_spec j 0); [lia|]. apply Nat.leb_le. lia.
  Qed.

  (** Calls that do not overlap strand nothing. *)
  Definition tidy (g : cst D) (k : @cpc V) : Prop :=
    c_late D g = false /\ (c_stage D g = SNone -> c_queue D g = []) /\
    match k with KPush => c_stage D g <> SNone | KD3 _ => c_queue D g = [] | _ => True end.
  Lemma tidy_step : forall g i e k g' r, tidy g k -> stp g i e k = Some (g', r) ->
    match r with Some k' => tidy g' k' | None => tidy g' K0 end.
  Proof.
    intros g i e k g' r (T1 & T2 & T3) H. unfold tidy.
    destruct k; cbn [cstep] in H;
      repeat match type of H with context [match ?x with _ => _ end] => destruct x eqn:? end;
      try discriminate; injection H as <- <-;
      cbn [c_late c_stage c_queue with_stage is_none]; rewrite ?T1; cbn [orb andb]; repeat split; auto; try discriminate; try congruence;
      try (intro E; rewrite E in *; discriminate).
    all: try (destruct (c_stage D g); cbn in *; auto; congruence).
    all: try (intro E; specialize (T2 E); congruence).
    - cbn in T3. now rewrite T3.
  Qed.
  Lemma tidy_run : forall fuel g i e k g', tidy g k -> crun stp fuel g i e k = Some g' -> tidy g' K0.
  Proof.
    induction fuel as [|f IH]; intros g i e k g' T R; [discriminate|]. cbn [crun] in R.
    destruct (stp g i e k) as [[g1 [k'|]]|] eqn:Q; try discriminate.
    - eapply IH; [|exact R]. exact (tidy_step _ _ _ _ _ _ T Q).
    - injection R as <-. exact (tidy_step _ _ _ _ _ _ T Q).
  Qed.
  Theorem concat_seq : forall fuel h g, cseq K0 stp fuel (c_init D d0) h = Some g ->
    c_late D g = false /\ c_down D g = mrun D d0 (outs concat_out h).
  Proof.
    intros fuel h g R. assert (LT0 : c_late D g = false).
    { assert (X : forall h ga, tidy ga K0 -> cseq K0 stp fuel ga h = Some g -> tidy g K0).
      { clear. induction h as [|[i e] h IH]; intros ga T R; cbn [cseq] in R; [injection R as <-; auto|].
        destruct (crun stp fuel ga i e K0) as [g1|] eqn:Q; [|discriminate]. eapply IH; [|exact R]. eapply tidy_run; eauto. }
      apply (X h (c_init D d0)); auto. repeat split. }
    split; auto.
    destruct (seq_generic K0 stp JX JX_inv JX_step JX_ret (c_init D d0) JX_init fuel h g R) as (c & tr & J & ID & <-).
    destruct J as [LA|[[DE DD]|(m & s & q & tk & LV)]]; [congruence | exact DD |].
    symmetry. change (mrun D d0 (outs concat_out (lins tr))) with (dd tr). dl LV. rewrite DN.
    destruct (c_outer D g) eqn:OU; auto. cbn [negb andb]. destruct (Nat.eqb_spec m (c_arr D g)) as [EQ|]; auto. exfalso.
    destruct (c_refs D g) as [|r rs] eqn:RE.
    - destruct (W eq_refl eq_refl) as [j Y]. rewrite ID in Y. discriminate.
    - destruct (R1 r (or_introl eq_refl)) as [->|[j Y]]; [|rewrite ID in Y; discriminate].
      destruct TK as (_ & T1 & T2 & _). lia.
  Qed.
End ConcatP.
