(** Proofs about RelModel. *)
From Verif Require Import Base RelSpec RelModel.

Section P.
  Variable op : rop.
  Notation Step1 := (mexec op).

  Definition pend (p : nat -> list micro) (m : micro) : Prop := exists k, In m (p k).

  Lemma fset_eq : forall X (f : nat -> X) i v, fset f i v i = v.
  Proof. intros. unfold fset. now rewrite Nat.eqb_refl. Qed.
  Lemma fset_ne : forall X (f : nat -> X) i v j, j <> i -> fset f i v j = f j.
  Proof. intros. unfold fset. now rewrite (proj2 (Nat.eqb_neq j i)). Qed.

  Lemma pend_keep : forall p i x r l m, p i = x :: r -> pend p m -> m = x \/ pend (fset p i (l ++ r)) m.
  Proof.
    intros p i x r l m E (k & I). destruct (Nat.eq_dec k i) as [->|N].
    - rewrite E in I. destruct I as [->|I]; [now left|right]. exists i. rewrite fset_eq. apply in_or_app. now right.
    - right. exists k. now rewrite fset_ne.
  Qed.
  Lemma pend_here : forall p i l r m, In m l -> pend (fset p i (l ++ r)) m.
  Proof. intros. exists i. rewrite fset_eq. apply in_or_app. now left. Qed.
  Lemma pend_back : forall p i x r l m, p i = x :: r -> pend (fset p i (l ++ r)) m -> In m l \/ pend p m.
  Proof.
    intros p i x r l m E (k & I). destruct (Nat.eq_dec k i) as [->|N].
    - rewrite fset_eq in I. apply in_app_or in I as [I|I]; [now left|right]. exists i. rewrite E. now right.
    - rewrite fset_ne in I by auto. right. now exists k.
  Qed.
  Lemma pend_set : forall p i l m, p i = [] -> pend p m -> pend (fset p i l) m.
  Proof.
    intros p i l m E (k & I). exists k. destruct (Nat.eq_dec k i) as [->|N]; [rewrite E in I; destruct I|].
    now rewrite fset_ne.
  Qed.
  Lemma pend_unset : forall p i l m, pend (fset p i l) m -> In m l \/ pend p m.
  Proof.
    intros p i l m (k & I). destruct (Nat.eq_dec k i) as [->|N].
    - rewrite fset_eq in I. now left.
    - rewrite fset_ne in I by auto. right. now exists k.
  Qed.
  Lemma pend_in : forall p i l m, In m l -> pend (fset p i l) m.
  Proof. intros. exists i. now rewrite fset_eq. Qed.

  (** Reasoning step by step. *)
  Lemma rrun_inv : forall (Inv : rs -> list rlab -> Prop),
    (forall s tr i d, Inv s tr -> s_pc s i = [] -> Inv (with_pc s i (if gate op s i then [MRel d] else up_body op i d)) (tr ++ [LUp i d])) ->
    (forall s tr i c, Inv s tr -> s_pc s i = [] -> (c = CDisp \/ (forall d, c <> CUp d) /\ gate op s i = false) ->
       Inv (with_pc s i (body op i c)) (tr ++ if is_end c then [LTerm i] else [])) ->
    (forall s tr i x r s' l ls, Inv s tr -> s_pc s i = x :: r -> mexec op s i x = (s', l, ls) -> Inv (with_pc s' i (l ++ r)) (tr ++ ls)) ->
    forall ms s tr0, Inv s tr0 -> forall s' tr, rrun op s ms = (s', tr) -> Inv s' (tr0 ++ tr).
  Proof.
    intros Inv HU HB HM. induction ms as [|m ms IH]; intros s tr0 I0 s' tr E.
    - cbn in E. injection E as <- <-. now rewrite app_nil_r.
    - cbn [rrun] in E. destruct (rstep op s m) as [s1 a] eqn:R. destruct (rrun op s1 ms) as [s2 b] eqn:RR.
      injection E as <- <-. rewrite app_assoc. eapply IH; [|exact RR].
      destruct m as [i c|i]; cbn [rstep] in R.
      + destruct (begin op s i c) as [[s3 a']|] eqn:B; injection R as <- <-; [|now rewrite app_nil_r].
        unfold begin in B. destruct (s_pc s i) eqn:PC; [|discriminate].
        destruct c as [d|o| | | | ].
        * destruct (negb (ready op s i)); [discriminate|]. injection B as <- <-. now apply HU.
        * destruct (negb (ready op s i)); [discriminate|]. destruct (gate op s i) eqn:G.
          { injection B as <- <-. now rewrite app_nil_r. }
          injection B as <- <-. apply (HB s tr0 i (CNext o)); auto. right. split; auto. discriminate.
        * destruct (negb (ready op s i)); [discriminate|]. destruct (gate op s i) eqn:G.
          { injection B as <- <-. now rewrite app_nil_r. }
          injection B as <- <-. apply (HB s tr0 i CErr); auto. right. split; auto. discriminate.
        * destruct (negb (ready op s i)); [discriminate|]. destruct (gate op s i) eqn:G.
          { injection B as <- <-. now rewrite app_nil_r. }
          injection B as <- <-. apply (HB s tr0 i CDone); auto. right. split; auto. discriminate.
        * destruct (negb (ready op s i)); [discriminate|]. destruct (gate op s i) eqn:G.
          { injection B as <- <-. now rewrite app_nil_r. }
          injection B as <- <-. apply (HB s tr0 i CInner); auto. right. split; auto. discriminate.
        * injection B as <- <-. apply (HB s tr0 i CDisp); auto.
      + destruct (s_pc s i) as [|x r] eqn:PC.
        * injection R as <- <-. now rewrite app_nil_r.
        * destruct (mexec op s i x) as [[s3 l] ls] eqn:X. injection R as <- <-. eapply HM; eauto.
  Qed.

  (** *** Shapes of the remaining steps of one call *)
  Definition mild (m : micro) : bool :=
    match m with MLAdd _ | MKeep _ | MCatch | MLDisp | MDec | MCRem => false | _ => true end.
  Definition plain (m : micro) : bool := match m with MDec | MCRem => true | _ => mild m end.

  Inductive shape (i : nat) : list micro -> Prop :=
  | ShUp : forall d, owns op i = true -> shape i (up_body op i d)
  | ShAdd : forall d, op = RMerge -> shape i [MCAdd d; MKeep d]
  | ShKeep : forall d, op = RMerge -> shape i [MKeep d]
  | ShRelKeep : forall d, op = RMerge -> shape i [MRel d; MKeep d]
  | ShCatch : shape i [MCatch]
  | ShEnd : forall l, owns op i = true -> forallb plain l = true -> shape i (l ++ [MLDisp])
  | ShMild : forall l, forallb mild l = true -> shape i l.

  Lemma mild_plain : forall l, forallb mild l = true -> forallb plain l = true.
  Proof. intros l H. rewrite forallb_forall in *. intros x I. specialize (H x I). destruct x; auto. Qed.
  Lemma mild_rel : forall l, forallb mild (map MRel l) = true.
  Proof. induction l; auto. Qed.
  Lemma mild_app : forall a b, forallb mild a = true -> forallb mild b = true -> forallb mild (a ++ b) = true.
  Proof. intros. rewrite forallb_app. now rewrite H, H0. Qed.
  Lemma plain_app : forall a b, forallb plain a = true -> forallb plain b = true -> forallb plain (a ++ b) = true.
  Proof. intros. rewrite forallb_app. now rewrite H, H0. Qed.

  Lemma shape_up : forall i d, shape i (up_body op i d).
  Proof.
    intros i d. destruct (owns op i) eqn:O; [now apply ShUp|]. apply ShMild. unfold up_body, own. rewrite O.
    destruct op; try reflexivity. discriminate.
  Qed.
  Lemma shape_body : forall i c, (forall d, c <> CUp d) -> shape i (body op i c).
  Proof.
    intros i c NU. destruct c as [d|o| | | | ]; [now contradiction (NU d)| | | | | ]; cbn [body].
    - destruct op, o; try destruct (i =? 0); (apply ShMild; reflexivity) || apply ShCatch.
    - unfold own. destruct (owns op i) eqn:O; [apply ShEnd; auto; destruct op; reflexivity|].
      apply ShMild. destruct op; reflexivity.
    - unfold own. destruct (owns op i) eqn:O; [apply ShEnd; auto; destruct op; try destruct (i =? 0); reflexivity|].
      unfold owns in O. destruct op; try discriminate; apply ShMild; destruct (i =? 0); reflexivity.
    - apply ShMild. destruct op; try destruct (i =? 0); reflexivity.
    - now apply ShMild.
  Qed.

  (** What a step puts in front: mild steps, or the end of the call. *)
  Lemma mexec_new : forall s i x s' l ls, mexec op s i x = (s', l, ls) ->
    match x with
    | MDec => l = [MCRem] /\ op = RMerge \/ forallb mild l = true
    | MCatch => l = MDDisp :: own op i [MLDisp] \/ l = []
    | _ => forallb mild l = true
    end.
  Proof.
    intros s i x s' l ls E. destruct s as [p df du cf ck lf lu md n k st]. cbn [mexec] in E.
    destruct x; try (injection E as <- <- <-; auto; fail).
    - destruct df; injection E as <- <- <-; reflexivity.
    - destruct df; injection E as <- <- <-; [reflexivity|]. apply mild_app; [|apply mild_rel]. destruct op; reflexivity.
    - destruct cf; injection E as <- <- <-; [reflexivity|apply mild_rel].
    - destruct cf; injection E as <- <- <-; reflexivity.
    - injection E as <- <- <-. apply mild_rel.
    - injection E as <- <- <-. destruct (n =? 1); auto. destruct op; auto.
    - injection E as <- <- <-. destruct st; reflexivity.
    - injection E as <- <- <-. destruct st; reflexivity.
    - destruct (gate _ _ i); injection E as <- <- <-; auto.
  Qed.
  Lemma shape_step : forall s i x r s' l ls, shape i (x :: r) -> mexec op s i x = (s', l, ls) -> shape i (l ++ r).
  Proof.
    intros s i x r s' l ls SH E. pose proof (mexec_new _ _ _ _ _ _ E) as NW. inversion SH as [d O Q|d O Q|d O Q|d O Q|Q|a O F Q|a F Q]; subst.
    - unfold up_body, own in Q. rewrite O in Q. cbn in Q. injection Q as <- <-.
      destruct s. cbn [mexec] in E. injection E as <- <- <-. cbn [app].
      destruct op eqn:OP; try (apply ShMild; reflexivity). apply ShAdd. auto.
    - destruct s. cbn [mexec] in E. destruct c_flag; injection E as <- <- <-; [now apply ShRelKeep|now apply ShKeep].
    - destruct s. cbn [mexec] in E. injection E as <- <- <-. now apply ShMild.
    - destruct s. cbn [mexec] in E. injection E as <- <- <-. now apply ShKeep.
    - destruct NW as [->| ->]; [|now apply ShMild]. rewrite app_nil_r. unfold own.
      destruct (owns op i) eqn:O; [|now apply ShMild]. now apply (ShEnd i [MDDisp]).
    - destruct a as [|y a]; cbn in Q; inversion Q; subst.
      + rewrite app_nil_r. apply ShMild. exact NW.
      + cbn in F. apply andb_prop in F as [Fx F]. rewrite app_assoc. apply ShEnd; auto. apply plain_app; auto.
        destruct x; try discriminate; try now apply mild_plain. destruct NW as [[-> _]|NW]; [reflexivity|now apply mild_plain].
    - cbn in F. apply andb_prop in F as [Fx F]. apply ShMild. apply mild_app; auto. destruct x; auto; discriminate.
  Qed.

  (** Consequences. *)
  Lemma shape_ldisp_hd : forall i r, shape i (MLDisp :: r) -> r = [].
  Proof.
    intros i r SH. inversion SH as [d O Q|d O Q|d O Q|d O Q|Q|a O F Q|a F Q]; subst; try discriminate.
    - unfold up_body, own in Q. rewrite O in Q. discriminate.
    - destruct a as [|y a]; cbn in Q; inversion Q; subst; auto. discriminate.
  Qed.
  Lemma shape_ldisp_owns : forall i l, shape i l -> In MLDisp l -> owns op i = true.
  Proof.
    intros i l SH I. inversion SH as [d O Q|d O Q|d O Q|d O Q|Q|a O F Q|a F Q]; subst; auto;
      try (cbn in I; intuition discriminate).
    rewrite forallb_forall in F. now apply F in I.
  Qed.
  Lemma shape_rem : forall i l, op = RMerge -> shape i l -> In MCRem l \/ In MDec l -> In MLDisp l.
  Proof.
    intros i l OP SH I. inversion SH as [d O Q|d O Q|d O Q|d O Q|Q|a O F Q|a F Q]; subst;
      try (cbn in I; intuition discriminate).
    - unfold up_body, own in I. rewrite OP in I. cbn in I. intuition discriminate.
    - apply in_or_app. right. now left.
    - rewrite forallb_forall in F. destruct I as [I|I]; now apply F in I.
  Qed.
  Lemma shape_mcrem : forall i l, shape i l -> In MCRem l -> In MLDisp l.
  Proof.
    intros i l SH I. inversion SH as [d O Q|d O Q|d O Q|d O Q|Q|a O F Q|a F Q]; subst;
      try (cbn in I; intuition discriminate).
    - unfold up_body, own in I. rewrite O in I. destruct op; cbn in I; intuition discriminate.
    - apply in_or_app. right. now left.
    - rewrite forallb_forall in F. now apply F in I.
  Qed.
  Lemma shape_ladd : forall i l d, shape i l -> In (MLAdd d) l -> owns op i = true /\ l = up_body op i d.
  Proof.
    intros i l d SH I. inversion SH as [d' O Q|d' O Q|d' O Q|d' O Q|Q|a O F Q|a F Q]; subst;
      try (cbn in I; intuition discriminate).
    - split; auto. unfold up_body in I. apply in_app_or in I as [I|I].
      + unfold own in I. rewrite O in I. destruct I as [I|[]]. injection I as ->. reflexivity.
      + destruct op; cbn in I; intuition discriminate.
    - apply in_app_or in I as [I|[I|[]]]; [|discriminate]. rewrite forallb_forall in F. now apply F in I.
    - rewrite forallb_forall in F. now apply F in I.
  Qed.

  Lemma in_rel : forall m l, In m (map MRel l) -> exists d, m = MRel d /\ In d l.
  Proof. intros m l I. apply in_map_iff in I as (d & <- & I). eauto. Qed.

  (** *** Everything is released *)
  Record RInv (s : rs) (tr : list rlab) : Prop := {
    ri_shape : forall i, shape i (s_pc s i);
    ri_over : In LOver tr <-> d_flag s = true;
    ri_comp : d_flag s = true -> op <> RTake -> c_flag s = true \/ pend (s_pc s) MCDisp;
    ri_kids : c_flag s = true -> c_kids s = [];
    ri_keep : forall i d, In (MKeep d) (s_pc s i) -> In d (l_ups s i) \/ In (MLAdd d) (s_pc s i);
    ri_mdisp : forall i d, In d (m_disp s i) -> In d (l_ups s i);
    ri_held : forall i d, In (LUp i d) tr ->
      In (LRel d) tr \/ pend (s_pc s) (MRel d) \/ pend (s_pc s) (MDAdd d) \/ pend (s_pc s) (MCAdd d) \/
      (In d (d_ups s) /\ d_flag s = false) \/ In d (c_kids s) \/
      exists k, In d (l_ups s k) /\ In MLDisp (s_pc s k)
  }.

  Lemma rinv_init : RInv (r_init op) [].
  Proof.
    constructor; cbn; try (intros; tauto || discriminate).
    - intros. now apply ShMild.
    - split; [tauto|discriminate].
  Qed.

  Ltac hs := repeat match goal with H : _ \/ _ |- _ => destruct H | H : exists _, _ |- _ => destruct H | H : _ /\ _ |- _ => destruct H end.

  Lemma in_up : forall i d m, In m (up_body op i d) -> m = MLAdd d /\ owns op i = true \/ m = MDAdd d \/ m = MCAdd d \/ m = MKeep d /\ op = RMerge.
  Proof.
    intros i d m I. unfold up_body, own in I. apply in_app_or in I as [I|I].
    - destruct (owns op i); [|destruct I]. destruct I as [<-|[]]. auto.
    - destruct op; cbn in I; intuition.
  Qed.
  Lemma up_holds : forall i d, In (MDAdd d) (up_body op i d) \/ In (MCAdd d) (up_body op i d).
  Proof. intros. unfold up_body. destruct op; [left|right|left|right]; apply in_or_app; right; now left. Qed.
  Lemma owns_merge : forall i, op = RMerge -> owns op i = true.
  Proof. intros i ->. reflexivity. Qed.

  Lemma rinv_up : forall s tr i d, RInv s tr -> s_pc s i = [] ->
    RInv (with_pc s i (if gate op s i then [MRel d] else up_body op i d)) (tr ++ [LUp i d]).
  Proof.
    intros s tr i d [SH OV CO KI KE MD HE] PC. destruct s as [p df du cf ck lf lu md n k st]. unfold with_pc. cbn [s_pc d_flag d_ups c_flag c_kids l_flag l_ups m_disp] in *.
    set (g := gate _ _ _). constructor; cbn [s_pc d_flag d_ups c_flag c_kids l_flag l_ups m_disp].
    - intro j. destruct (Nat.eq_dec j i) as [->|N]; [rewrite fset_eq|now rewrite fset_ne].
      destruct g; [now apply ShMild|apply shape_up].
    - rewrite in_app_iff. cbn. rewrite OV. intuition discriminate.
    - intros D O. destruct (CO D O); auto. right. now apply pend_set.
    - auto.
    - intros j x I. destruct (Nat.eq_dec j i) as [->|N]; [rewrite fset_eq in *|rewrite fset_ne in * by auto; eauto].
      destruct g; [cbn in I; intuition discriminate|]. apply in_up in I. hs; try discriminate.
      injection H as ->. right. unfold up_body, own. rewrite (owns_merge i H0). now left.
    - auto.
    - intros j x I. apply in_app_or in I as [I|[I|[]]].
      + destruct (HE j x I) as [Q|[Q|[Q|[Q|[Q|[Q|(m & Q & R)]]]]]]; try (apply pend_set with (i := i) (l := if g then [MRel d] else up_body op i d) in Q; auto); auto 8.
        { left. apply in_or_app. now left. }
        do 6 right. exists m. split; auto. destruct (Nat.eq_dec m i) as [->|N]; [rewrite PC in R; destruct R|now rewrite fset_ne].
      + injection I as -> ->. destruct g eqn:G.
        * right. left. apply pend_in. now left.
        * destruct (up_holds j x); do 2 right; [left|right; left]; now apply pend_in.
  Qed.

  Lemma body_quiet : forall i c d, (forall d, c <> CUp d) -> ~ In (MKeep d) (body op i c).
  Proof.
    intros i c d NU I. destruct c as [x|o| | | | ]; [now contradiction (NU x)| | | | | ]; cbn [body] in I; unfold own in I;
      destruct op; try destruct o; cbn [owns] in I; try destruct (i =? 0); cbn in I; intuition discriminate.
  Qed.
  Lemma rinv_begin : forall s tr i c, RInv s tr -> s_pc s i = [] -> (c = CDisp \/ (forall d, c <> CUp d) /\ gate op s i = false) ->
       RInv (with_pc s i (body op i c)) (tr ++ if is_end c then [LTerm i] else []).
  Proof.
    intros s tr i c [SH OV CO KI KE MD HE] PC HC. destruct s as [p df du cf ck lf lu md n k st]. unfold with_pc. cbn [s_pc d_flag d_ups c_flag c_kids l_flag l_ups m_disp] in *.
    assert (NU : forall d, c <> CUp d) by (destruct HC as [->|[H _]]; [discriminate|exact H]).
    constructor; cbn [s_pc d_flag d_ups c_flag c_kids l_flag l_ups m_disp].
    - intro j. destruct (Nat.eq_dec j i) as [->|N]; [rewrite fset_eq|now rewrite fset_ne]. now apply shape_body.
    - rewrite in_app_iff, OV. destruct (is_end c); cbn; intuition discriminate.
    - intros D O. destruct (CO D O); auto. right. now apply pend_set.
    - auto.
    - intros j x I. destruct (Nat.eq_dec j i) as [->|N]; [rewrite fset_eq in *|rewrite fset_ne in * by auto; eauto].
      now apply body_quiet in I.
    - auto.
    - intros j x I. assert (I' : In (LUp j x) tr) by (apply in_app_or in I as [I|I]; auto; destruct (is_end c); cbn in I; intuition discriminate).
      destruct (HE j x I') as [Q|[Q|[Q|[Q|[Q|[Q|(m & Q & R)]]]]]]; try (apply pend_set with (i := i) (l := body op i c) in Q; auto); auto 8.
      { left. apply in_or_app. now left. }
      do 6 right. exists m. split; auto. destruct (Nat.eq_dec m i) as [->|N]; [rewrite PC in R; destruct R|now rewrite fset_ne].
  Qed.

  (** A step that changes nothing but what is left to do. *)
  Lemma keep_over : forall tr ls b, In LOver tr <-> b = true -> ~ In LOver ls -> In LOver (tr ++ ls) <-> b = true.
  Proof. intros tr ls b H N. rewrite in_app_iff. tauto. Qed.
  Lemma no_up : forall s i x s' l ls j d, mexec op s i x = (s', l, ls) -> ~ In (LUp j d) ls.
  Proof.
    intros s i x s' l ls j d E. destruct s as [p df du cf ck lf lu md n k st]. cbn [mexec] in E.
    destruct x; try (destruct df); try (destruct cf); try destruct (gate _ _ _); injection E as <- <- <-; cbn; intuition discriminate.
  Qed.
  Lemma mild_keep : forall l d, forallb mild l = true -> ~ In (MKeep d) l.
  Proof. intros l d F I. rewrite forallb_forall in F. now apply F in I. Qed.
  Lemma new_keep : forall s i x s' l ls d, mexec op s i x = (s', l, ls) -> ~ In (MKeep d) l.
  Proof.
    intros s i x s' l ls d E. apply mexec_new in E. destruct x; try now apply mild_keep.
    - destruct E as [[-> _]|E]; [cbn; intuition discriminate|now apply mild_keep].
    - unfold own in E. destruct (owns op i), E as [->| ->]; cbn; intuition discriminate.
  Qed.

  Lemma rinv_step : forall s tr i x r s' l ls, RInv s tr -> s_pc s i = x :: r -> mexec op s i x = (s', l, ls) ->
    RInv (with_pc s' i (l ++ r)) (tr ++ ls).
  Proof.
    intros s tr i x r s' l ls [SH OV CO KI KE MD HE] PC E.
    assert (SH' : forall j, shape j (fset (s_pc s) i (l ++ r) j)).
    { intro j. destruct (Nat.eq_dec j i) as [->|N]; [rewrite fset_eq|now rewrite fset_ne].
      eapply shape_step; [|exact E]. rewrite <- PC. apply SH. }
    pose proof (fun j d => no_up s i x s' l ls j d E) as NU.
    pose proof (fun d => new_keep s i x s' l ls d E) as NK.
    assert (UP : forall j d, In (LUp j d) (tr ++ ls) -> In (LUp j d) tr).
    { intros j d I. apply in_app_or in I as [I|I]; auto. now apply NU in I. }
    assert (PK : forall m, pend (s_pc s) m -> m = x \/ pend (fset (s_pc s) i (l ++ r)) m) by (intros; eapply pend_keep; eauto).
    assert (PN : forall m, In m l -> pend (fset (s_pc s) i (l ++ r)) m) by (intros; now apply pend_here).
    assert (LK : forall k, In MLDisp (s_pc s k) -> x <> MLDisp -> In MLDisp (fset (s_pc s) i (l ++ r) k)).
    { intros k I NX. destruct (Nat.eq_dec k i) as [->|N]; [rewrite fset_eq|now rewrite fset_ne].
      rewrite PC in I. destruct I as [I|I]; [congruence|]. apply in_or_app. now right. }
    assert (KK : forall j d, In (MKeep d) (fset (s_pc s) i (l ++ r) j) -> In (MKeep d) (s_pc s j)).
    { intros j d I. destruct (Nat.eq_dec j i) as [->|N]; [rewrite fset_eq in I|now rewrite fset_ne in I].
      apply in_app_or in I as [I|I]; [now apply NK in I|]. rewrite PC. now right. }
    assert (AK : forall j d, In (MLAdd d) (s_pc s j) -> x <> MLAdd d -> In (MLAdd d) (fset (s_pc s) i (l ++ r) j)).
    { intros j d I NX. destruct (Nat.eq_dec j i) as [->|N]; [rewrite fset_eq|now rewrite fset_ne].
      rewrite PC in I. destruct I as [I|I]; [congruence|]. apply in_or_app. now right. }
    destruct s as [p df du cf ck lf lu md n k st]. cbn [s_pc d_flag d_ups c_flag c_kids l_flag l_ups m_disp] in *.
    pose proof (SH i) as SHi.
    destruct x as [d|d| | |d| |d|d| | | | | |]; cbn [mexec] in E.
    - (* MRel *)
      injection E as <- <- <-. unfold with_pc. constructor; cbn [s_pc d_flag d_ups c_flag c_kids l_flag l_ups m_disp]; auto.
      + apply keep_over; auto. cbn. intuition discriminate.
      + intros A B. destruct (CO A B) as [|Q]; auto. destruct (PK _ Q); [discriminate|auto].
      + intros j e I. destruct (KE j e (KK _ _ I)); auto. right. apply AK; auto. discriminate.
      + intros j e I. destruct (HE j e (UP _ _ I)) as [Q|[Q|[Q|[Q|[Q|[Q|(m & Q & R)]]]]]]; auto 8.
        * left. apply in_or_app. auto.
        * destruct (PK _ Q) as [W|W]; auto. injection W as ->. left. apply in_or_app. right. now left.
        * destruct (PK _ Q) as [W|W]; [discriminate|auto].
        * destruct (PK _ Q) as [W|W]; [discriminate|auto 6].
        * do 6 right. exists m. split; auto. apply LK; auto. discriminate.
    - (* MDAdd *)
      destruct df.
      + injection E as <- <- <-. unfold with_pc. constructor; cbn [s_pc d_flag d_ups c_flag c_kids l_flag l_ups m_disp]; auto.
        * apply keep_over; auto.
        * intros A B. destruct (CO A B) as [|Q]; auto. destruct (PK _ Q); [discriminate|auto].
        * intros j e I. destruct (KE j e (KK _ _ I)); auto. right. apply AK; auto. discriminate.
        * intros j e I. destruct (HE j e (UP _ _ I)) as [Q|[Q|[Q|[Q|[Q|[Q|(m & Q & R)]]]]]]; auto 8.
          -- left. apply in_or_app. auto.
          -- destruct (PK _ Q) as [W|W]; [discriminate|auto].
          -- destruct (PK _ Q) as [W|W]; auto. injection W as ->. right. left. apply PN. now left.
          -- destruct (PK _ Q) as [W|W]; [discriminate|auto 6].
          -- do 6 right. exists m. split; auto. apply LK; auto. discriminate.
      + injection E as <- <- <-. unfold with_pc. constructor; cbn [s_pc d_flag d_ups c_flag c_kids l_flag l_ups m_disp]; auto.
        * apply keep_over; auto.
        * intros A B. discriminate.
        * intros j e I. destruct (KE j e (KK _ _ I)); auto. right. apply AK; auto. discriminate.
        * intros j e I. destruct (HE j e (UP _ _ I)) as [Q|[Q|[Q|[Q|[[Q _]|[Q|(m & Q & R)]]]]]]; auto 8.
          -- left. apply in_or_app. auto.
          -- destruct (PK _ Q) as [W|W]; [discriminate|auto].
          -- destruct (PK _ Q) as [W|W]; auto. injection W as ->. do 4 right. left. split; auto. apply in_or_app. right. now left.
          -- destruct (PK _ Q) as [W|W]; [discriminate|auto 6].
          -- do 4 right. left. split; auto. apply in_or_app. now left.
          -- do 6 right. exists m. split; auto. apply LK; auto. discriminate.
    - (* MDDisp *)
      destruct df.
      + injection E as <- <- <-. unfold with_pc. constructor; cbn [s_pc d_flag d_ups c_flag c_kids l_flag l_ups m_disp]; auto.
        * apply keep_over; auto.
        * intros A B. destruct (CO A B) as [|Q]; auto. destruct (PK _ Q); [discriminate|auto].
        * intros j e I. destruct (KE j e (KK _ _ I)); auto. right. apply AK; auto. discriminate.
        * intros j e I. destruct (HE j e (UP _ _ I)) as [Q|[Q|[Q|[Q|[Q|[Q|(m & Q & R)]]]]]]; auto 8.
          -- left. apply in_or_app. auto.
          -- destruct (PK _ Q) as [W|W]; [discriminate|auto].
          -- destruct (PK _ Q) as [W|W]; [discriminate|auto].
          -- destruct (PK _ Q) as [W|W]; [discriminate|auto 6].
          -- do 6 right. exists m. split; auto. apply LK; auto. discriminate.
      + injection E as <- <- <-. unfold with_pc. constructor; cbn [s_pc d_flag d_ups c_flag c_kids l_flag l_ups m_disp]; auto.
        * split; auto. intros _. apply in_or_app. right. now left.
        * intros _ B. right. apply PN. apply in_or_app. left. destruct op; try (now left). congruence.
        * intros j e I. destruct (KE j e (KK _ _ I)); auto. right. apply AK; auto. discriminate.
        * intros j e I. destruct (HE j e (UP _ _ I)) as [Q|[Q|[Q|[Q|[[Q _]|[Q|(m & Q & R)]]]]]]; auto 8.
          -- left. apply in_or_app. auto.
          -- destruct (PK _ Q) as [W|W]; [discriminate|auto].
          -- destruct (PK _ Q) as [W|W]; [discriminate|auto].
          -- destruct (PK _ Q) as [W|W]; [discriminate|auto 6].
          -- right. left. apply PN. apply in_or_app. right. now apply in_map.
          -- do 6 right. exists m. split; auto. apply LK; auto. discriminate.
    - (* MCDisp *)
      destruct cf.
      + injection E as <- <- <-. unfold with_pc. constructor; cbn [s_pc d_flag d_ups c_flag c_kids l_flag l_ups m_disp]; auto.
        * apply keep_over; auto.
        * intros j e I. destruct (KE j e (KK _ _ I)); auto. right. apply AK; auto. discriminate.
        * intros j e I. destruct (HE j e (UP _ _ I)) as [Q|[Q|[Q|[Q|[Q|[Q|(m & Q & R)]]]]]]; auto 8.
          -- left. apply in_or_app. auto.
          -- destruct (PK _ Q) as [W|W]; [discriminate|auto].
          -- destruct (PK _ Q) as [W|W]; [discriminate|auto].
          -- destruct (PK _ Q) as [W|W]; [discriminate|auto 6].
          -- do 6 right. exists m. split; auto. apply LK; auto. discriminate.
      + injection E as <- <- <-. unfold with_pc. constructor; cbn [s_pc d_flag d_ups c_flag c_kids l_flag l_ups m_disp]; auto.
        * apply keep_over; auto.
        * intros j e I. destruct (KE j e (KK _ _ I)); auto. right. apply AK; auto. discriminate.
        * intros j e I. destruct (HE j e (UP _ _ I)) as [Q|[Q|[Q|[Q|[Q|[Q|(m & Q & R)]]]]]]; auto 8.
          -- left. apply in_or_app. auto.
          -- destruct (PK _ Q) as [W|W]; [discriminate|auto].
          -- destruct (PK _ Q) as [W|W]; [discriminate|auto].
          -- destruct (PK _ Q) as [W|W]; [discriminate|auto 6].
          -- right. left. apply PN. now apply in_map.
          -- do 6 right. exists m. split; auto. apply LK; auto. discriminate.
    - (* MCAdd *)
      destruct cf.
      + injection E as <- <- <-. unfold with_pc. constructor; cbn [s_pc d_flag d_ups c_flag c_kids l_flag l_ups m_disp]; auto.
        * apply keep_over; auto.
        * intros j e I. destruct (KE j e (KK _ _ I)); auto. right. apply AK; auto. discriminate.
        * intros j e I. destruct (HE j e (UP _ _ I)) as [Q|[Q|[Q|[Q|[Q|[Q|(m & Q & R)]]]]]]; auto 8.
          -- left. apply in_or_app. auto.
          -- destruct (PK _ Q) as [W|W]; [discriminate|auto].
          -- destruct (PK _ Q) as [W|W]; [discriminate|auto].
          -- destruct (PK _ Q) as [W|W]; [|auto 6]. injection W as ->. right. left. apply PN. now left.
          -- do 6 right. exists m. split; auto. apply LK; auto. discriminate.
      + injection E as <- <- <-. unfold with_pc. constructor; cbn [s_pc d_flag d_ups c_flag c_kids l_flag l_ups m_disp]; auto.
        * apply keep_over; auto.
        * intros A B. destruct (CO A B) as [Q|Q]; auto. destruct (PK _ Q); [discriminate|auto].
        * discriminate.
        * intros j e I. destruct (KE j e (KK _ _ I)); auto. right. apply AK; auto. discriminate.
        * intros j e I. destruct (HE j e (UP _ _ I)) as [Q|[Q|[Q|[Q|[Q|[Q|(m & Q & R)]]]]]]; auto 8.
          -- left. apply in_or_app. auto.
          -- destruct (PK _ Q) as [W|W]; [discriminate|auto].
          -- destruct (PK _ Q) as [W|W]; [discriminate|auto].
          -- destruct (PK _ Q) as [W|W]; [|auto 6]. injection W as ->. do 5 right. left. apply in_or_app. right. now left.
          -- do 5 right. left. apply in_or_app. now left.
          -- do 6 right. exists m. split; auto. apply LK; auto. discriminate.
    - (* MCRem *)
      injection E as <- <- <-. unfold with_pc. constructor; cbn [s_pc d_flag d_ups c_flag c_kids l_flag l_ups m_disp]; auto.
      + apply keep_over; auto.
      + intros A B. destruct (CO A B) as [|Q]; auto. destruct (PK _ Q); [discriminate|auto].
      + intro A. now rewrite (KI A).
      + intros j e I. destruct (KE j e (KK _ _ I)); auto. right. apply AK; auto. discriminate.
      + intros j e I. destruct (HE j e (UP _ _ I)) as [Q|[Q|[Q|[Q|[Q|[Q|(m & Q & R)]]]]]]; auto 8.
        * left. apply in_or_app. auto.
        * destruct (PK _ Q) as [W|W]; [discriminate|auto].
        * destruct (PK _ Q) as [W|W]; [discriminate|auto].
        * destruct (PK _ Q) as [W|W]; [discriminate|auto 6].
        * destruct (existsb (Nat.eqb e) (md i)) eqn:X.
          -- apply existsb_exists in X as (y & Y & Z). apply Nat.eqb_eq in Z. subst y.
             do 6 right. exists i. split; [now apply MD|]. apply LK; [|discriminate].
             apply (shape_mcrem i _ SHi). rewrite PC. now left.
          -- do 5 right. left. apply filter_In. split; auto. now rewrite X.
        * do 6 right. exists m. split; auto. apply LK; auto. discriminate.
    - (* MLAdd *)
      injection E as <- <- <-. unfold with_pc. constructor; cbn [s_pc d_flag d_ups c_flag c_kids l_flag l_ups m_disp]; auto.
      + apply keep_over; auto.
      + intros A B. destruct (CO A B) as [|Q]; auto. destruct (PK _ Q); [discriminate|auto].
      + intros j e I. destruct (KE j e (KK _ _ I)) as [Q|Q].
        * left. destruct (Nat.eq_dec j i) as [->|N]; [rewrite fset_eq; apply in_or_app; auto|now rewrite fset_ne].
        * destruct (Nat.eq_dec j i) as [->|N].
          -- destruct (shape_ladd _ _ _ SHi Q) as [O L]. rewrite PC in L. unfold up_body, own in L. rewrite O in L. cbn in L. injection L as -> _.
             left. rewrite fset_eq. apply in_or_app. right. now left.
          -- right. now rewrite fset_ne.
      + intros j e I. destruct (Nat.eq_dec j i) as [->|N]; [rewrite fset_eq; apply in_or_app; auto|rewrite fset_ne; auto].
      + intros j e I. destruct (HE j e (UP _ _ I)) as [Q|[Q|[Q|[Q|[Q|[Q|(m & Q & R)]]]]]]; auto 8.
        * left. apply in_or_app. auto.
        * destruct (PK _ Q) as [W|W]; [discriminate|auto].
        * destruct (PK _ Q) as [W|W]; [discriminate|auto].
        * destruct (PK _ Q) as [W|W]; [discriminate|auto 6].
        * do 6 right. exists m. split; [|apply LK; auto; discriminate].
          destruct (Nat.eq_dec m i) as [->|N]; [rewrite fset_eq; apply in_or_app; auto|now rewrite fset_ne].
    - (* MKeep *)
      injection E as <- <- <-. unfold with_pc. constructor; cbn [s_pc d_flag d_ups c_flag c_kids l_flag l_ups m_disp]; auto.
      + apply keep_over; auto.
      + intros A B. destruct (CO A B) as [|Q]; auto. destruct (PK _ Q); [discriminate|auto].
      + intros j e I. destruct (KE j e (KK _ _ I)); auto. right. apply AK; auto. discriminate.
      + intros j e I. destruct (Nat.eq_dec j i) as [->|N]; [|rewrite fset_ne in I; auto].
        rewrite fset_eq in I. apply in_app_or in I as [I|[<-|[]]]; auto.
        destruct (KE i d) as [Q|Q]; auto; [rewrite PC; now left|].
        exfalso. destruct (shape_ladd _ _ _ SHi Q) as [O L]. rewrite PC in L. unfold up_body, own in L. rewrite O in L. discriminate.
      + intros j e I. destruct (HE j e (UP _ _ I)) as [Q|[Q|[Q|[Q|[Q|[Q|(m & Q & R)]]]]]]; auto 8.
        * left. apply in_or_app. auto.
        * destruct (PK _ Q) as [W|W]; [discriminate|auto].
        * destruct (PK _ Q) as [W|W]; [discriminate|auto].
        * destruct (PK _ Q) as [W|W]; [discriminate|auto 6].
        * do 6 right. exists m. split; auto. apply LK; auto. discriminate.
    - (* MLDisp *)
      injection E as <- <- <-. unfold with_pc. constructor; cbn [s_pc d_flag d_ups c_flag c_kids l_flag l_ups m_disp]; auto.
      + apply keep_over; auto.
      + intros A B. destruct (CO A B) as [|Q]; auto. destruct (PK _ Q); [discriminate|auto].
      + intros j e I. destruct (KE j e (KK _ _ I)); auto. right. apply AK; auto. discriminate.
      + intros j e I. destruct (HE j e (UP _ _ I)) as [Q|[Q|[Q|[Q|[Q|[Q|(m & Q & R)]]]]]]; auto 8.
        * left. apply in_or_app. auto.
        * destruct (PK _ Q) as [W|W]; [discriminate|auto].
        * destruct (PK _ Q) as [W|W]; [discriminate|auto].
        * destruct (PK _ Q) as [W|W]; [discriminate|auto 6].
        * destruct (Nat.eq_dec m i) as [->|N].
          -- right. left. apply PN. now apply in_map.
          -- do 6 right. exists m. split; auto. now rewrite fset_ne.
    - (* MDec *)
      injection E as <- <- <-. unfold with_pc. constructor; cbn [s_pc d_flag d_ups c_flag c_kids l_flag l_ups m_disp]; auto.
      + apply keep_over; auto.
      + intros A B. destruct (CO A B) as [|Q]; auto. destruct (PK _ Q); [discriminate|auto].
      + intros j e I. destruct (KE j e (KK _ _ I)); auto. right. apply AK; auto. discriminate.
      + intros j e I. destruct (HE j e (UP _ _ I)) as [Q|[Q|[Q|[Q|[Q|[Q|(m & Q & R)]]]]]]; auto 8.
        * left. apply in_or_app. auto.
        * destruct (PK _ Q) as [W|W]; [discriminate|auto].
        * destruct (PK _ Q) as [W|W]; [discriminate|auto].
        * destruct (PK _ Q) as [W|W]; [discriminate|auto 6].
        * do 6 right. exists m. split; auto. apply LK; auto. discriminate.
    - (* MStop *)
      injection E as <- <- <-. unfold with_pc. constructor; cbn [s_pc d_flag d_ups c_flag c_kids l_flag l_ups m_disp]; auto.
      + apply keep_over; auto.
      + intros A B. destruct (CO A B) as [|Q]; auto. destruct (PK _ Q); [discriminate|auto].
      + intros j e I. destruct (KE j e (KK _ _ I)); auto. right. apply AK; auto. discriminate.
      + intros j e I. destruct (HE j e (UP _ _ I)) as [Q|[Q|[Q|[Q|[Q|[Q|(m & Q & R)]]]]]]; auto 8.
        * left. apply in_or_app. auto.
        * destruct (PK _ Q) as [W|W]; [discriminate|auto].
        * destruct (PK _ Q) as [W|W]; [discriminate|auto].
        * destruct (PK _ Q) as [W|W]; [discriminate|auto 6].
        * do 6 right. exists m. split; auto. apply LK; auto. discriminate.
    - (* MPass *)
      injection E as <- <- <-. unfold with_pc. constructor; cbn [s_pc d_flag d_ups c_flag c_kids l_flag l_ups m_disp]; auto.
      + apply keep_over; auto.
      + intros A B. destruct (CO A B) as [|Q]; auto. destruct (PK _ Q); [discriminate|auto].
      + intros j e I. destruct (KE j e (KK _ _ I)); auto. right. apply AK; auto. discriminate.
      + intros j e I. destruct (HE j e (UP _ _ I)) as [Q|[Q|[Q|[Q|[Q|[Q|(m & Q & R)]]]]]]; auto 8.
        * left. apply in_or_app. auto.
        * destruct (PK _ Q) as [W|W]; [discriminate|auto].
        * destruct (PK _ Q) as [W|W]; [discriminate|auto].
        * destruct (PK _ Q) as [W|W]; [discriminate|auto 6].
        * do 6 right. exists m. split; auto. apply LK; auto. discriminate.
    - (* MCatch *)
      destruct (gate _ _ _); injection E as <- <- <-; unfold with_pc; constructor; cbn [s_pc d_flag d_ups c_flag c_kids l_flag l_ups m_disp]; auto.
      + apply keep_over; auto.
      + intros A B. destruct (CO A B) as [|Q]; auto. destruct (PK _ Q); [discriminate|auto].
      + intros j e I. destruct (KE j e (KK _ _ I)); auto. right. apply AK; auto. discriminate.
      + intros j e I. destruct (HE j e (UP _ _ I)) as [Q|[Q|[Q|[Q|[Q|[Q|(m & Q & R)]]]]]]; auto 8.
        * left. apply in_or_app. auto.
        * destruct (PK _ Q) as [W|W]; [discriminate|auto].
        * destruct (PK _ Q) as [W|W]; [discriminate|auto].
        * destruct (PK _ Q) as [W|W]; [discriminate|auto 6].
        * do 6 right. exists m. split; auto. apply LK; auto. discriminate.
      + apply keep_over; auto. cbn. intuition discriminate.
      + intros A B. destruct (CO A B) as [|Q]; auto. destruct (PK _ Q); [discriminate|auto].
      + intros j e I. destruct (KE j e (KK _ _ I)); auto. right. apply AK; auto. discriminate.
      + intros j e I. destruct (HE j e (UP _ _ I)) as [Q|[Q|[Q|[Q|[Q|[Q|(m & Q & R)]]]]]]; auto 8.
        * left. apply in_or_app. auto.
        * destruct (PK _ Q) as [W|W]; [discriminate|auto].
        * destruct (PK _ Q) as [W|W]; [discriminate|auto].
        * destruct (PK _ Q) as [W|W]; [discriminate|auto 6].
        * do 6 right. exists m. split; auto. apply LK; auto. discriminate.
    - (* MInner *)
      injection E as <- <- <-. unfold with_pc. constructor; cbn [s_pc d_flag d_ups c_flag c_kids l_flag l_ups m_disp]; auto.
      + apply keep_over; auto. cbn. intuition discriminate.
      + intros A B. destruct (CO A B) as [|Q]; auto. destruct (PK _ Q); [discriminate|auto].
      + intros j e I. destruct (KE j e (KK _ _ I)); auto. right. apply AK; auto. discriminate.
      + intros j e I. destruct (HE j e (UP _ _ I)) as [Q|[Q|[Q|[Q|[Q|[Q|(m & Q & R)]]]]]]; auto 8.
        * left. apply in_or_app. auto.
        * destruct (PK _ Q) as [W|W]; [discriminate|auto].
        * destruct (PK _ Q) as [W|W]; [discriminate|auto].
        * destruct (PK _ Q) as [W|W]; [discriminate|auto 6].
        * do 6 right. exists m. split; auto. apply LK; auto. discriminate.
  Qed.

  Lemma rinv_run : forall ms s tr, rrun op (r_init op) ms = (s, tr) -> RInv s tr.
  Proof.
    intros ms s tr E. change tr with ([] ++ tr). eapply (rrun_inv RInv); eauto using rinv_up, rinv_begin, rinv_step, rinv_init.
  Qed.
  (** take_until does not use a composite. *)
  Definition TInv (s : rs) (tr : list rlab) : Prop := c_kids s = [] /\ forall k d, ~ In (MCAdd d) (s_pc s k).
  Lemma tinv_run : op = RTake -> forall ms s tr, rrun op (r_init op) ms = (s, tr) -> TInv s tr.
  Proof.
    intros OP ms s tr E. change tr with ([] ++ tr). eapply (rrun_inv TInv); eauto.
    - intros s0 tr0 i d [A B] PC. split; auto. intros k x. cbn. destruct (Nat.eq_dec k i) as [->|N]; [rewrite fset_eq|now rewrite fset_ne].
      destruct (gate op s0 i); [cbn; intuition discriminate|]. rewrite OP. cbn. intuition discriminate.
    - intros s0 tr0 i c [A B] PC HC. split; auto. intros k x. cbn. destruct (Nat.eq_dec k i) as [->|N]; [rewrite fset_eq|now rewrite fset_ne].
      rewrite OP. destruct HC as [->|[H _]]; [cbn; intuition discriminate|].
      destruct c as [d|o| | | | ]; [now contradiction (H d)| | | | | ]; cbn [body own owns]; try destruct (i =? 0); try destruct o; cbn; intuition discriminate.
    - intros s0 tr0 i x r s1 l ls [A B] PC X. assert (NL : forall d, ~ In (MCAdd d) l /\ c_kids s1 = []).
      { intro d. pose proof (B i) as Bi. rewrite PC in Bi. destruct s0 as [p df du cf ck lf lu md n k st]. cbn [mexec] in X. cbn in A. subst ck.
        destruct x; try destruct df; try destruct cf; try destruct (gate _ _ _); injection X as <- <- <-;
          try (split; [cbn; intuition discriminate|reflexivity]); try (exfalso; eapply Bi; left; reflexivity);
          (split; [|reflexivity]); rewrite ?OP; try (destruct (n =? 1); cbn; intuition discriminate); try (destruct st; cbn; intuition discriminate);
          try (intro I; apply in_map_iff in I as (y & Y & _); discriminate). }
      split; [cbn; apply (NL 0)|]. intros k d. cbn.
      assert (PP : s_pc s1 = s_pc s0).
      { destruct s0 as [p df du cf ck lf lu md n kk st]. cbn [mexec] in X. destruct x; try destruct df; try destruct cf; try destruct (gate _ _ _); injection X as <- <- <-; reflexivity. }
      destruct (Nat.eq_dec k i) as [->|N]; [rewrite fset_eq|rewrite fset_ne, PP; auto].
      intro I. apply in_app_or in I as [I|I]; [now apply NL in I|]. apply (B i d). rewrite PC. now right.
    - split; auto.
  Qed.

  Theorem all_released : forall ms s tr i, rrun op (r_init op) ms = (s, tr) -> quiet s -> In LOver tr -> released tr i.
  Proof.
    intros ms s tr i E Q O d I. destruct (rinv_run ms s tr E) as [SH OV CO KI KE MD HE].
    apply OV in O. assert (NP : forall m, ~ pend (s_pc s) m) by (intros m (k & H); now rewrite Q in H).
    destruct (HE i d I) as [H|[H|[H|[H|[[_ H]|[H|(k & _ & H)]]]]]]; auto; try now apply NP in H.
    - congruence.
    - destruct op eqn:OP; try (destruct (CO O) as [C|C]; [discriminate|rewrite (KI C) in H; destruct H|now apply NP in C]).
      destruct (tinv_run OP ms s tr) as [T _]; [now rewrite OP|]. rewrite T in H. destruct H.
    - now rewrite Q in H.
  Qed.

  (** *** Nothing is released early *)
  Record EInv (s : rs) (tr : list rlab) : Prop := {
    ei_place : forall d, In d (d_ups s) \/ In d (c_kids s) \/ pend (s_pc s) (MDAdd d) \/ pend (s_pc s) (MCAdd d) -> exists i, In (LUp i d) tr;
    ei_own : forall i d, In d (l_ups s i) \/ In (MLAdd d) (s_pc s i) -> In (LUp i d) tr;
    ei_rel : forall d, In (LRel d) tr \/ pend (s_pc s) (MRel d) -> exists i, In (LUp i d) tr /\ (In LOver tr \/ In (LTerm i) tr);
    ei_end : forall i, In MLDisp (s_pc s i) \/ l_flag s i = true -> In (LTerm i) tr;
    ei_comp : c_flag s = true \/ pend (s_pc s) MCDisp \/ d_flag s = true -> In LOver tr
  }.
  Lemma einv_init : EInv (r_init op) [].
  Proof. constructor; cbn; intros; repeat match goal with H : _ \/ _ |- _ => destruct H | H : pend _ _ |- _ => destruct H end; cbn in *; try tauto; discriminate. Qed.

  Lemma fset_in : forall (p : nat -> list micro) i l k m, In m (fset p i l k) -> k = i /\ In m l \/ In m (p k).
  Proof. intros p i l k m I. destruct (Nat.eq_dec k i) as [->|N]; [rewrite fset_eq in I|rewrite fset_ne in I]; auto. Qed.

  Lemma mono_place : forall tr ls d, (exists i, In (LUp i d) tr) -> exists i, In (LUp i d) (tr ++ ls).
  Proof. intros tr ls d (i & I). exists i. apply in_or_app. auto. Qed.
  Lemma mono_rel : forall tr ls d, (exists i, In (LUp i d) tr /\ (In LOver tr \/ In (LTerm i) tr)) ->
    exists i, In (LUp i d) (tr ++ ls) /\ (In LOver (tr ++ ls) \/ In (LTerm i) (tr ++ ls)).
  Proof. intros tr ls d (i & I & J). exists i. rewrite !in_app_iff. tauto. Qed.

  Lemma gate_why : forall s tr i, EInv s tr -> gate op s i = true -> In LOver tr \/ In (LTerm i) tr.
  Proof.
    intros s tr i [A B C D E] G. unfold gate in G. apply orb_prop in G as [G|G].
    - apply andb_prop in G as [_ G]. auto.
    - left. apply E. destruct op; auto.
  Qed.

  Lemma einv_up : forall s tr i d, EInv s tr -> s_pc s i = [] ->
    EInv (with_pc s i (if gate op s i then [MRel d] else up_body op i d)) (tr ++ [LUp i d]).
  Proof.
    intros s tr i d EI PC. pose proof (gate_why s tr i EI) as GW. destruct EI as [A B C D E].
    destruct (gate op s i) eqn:G; unfold with_pc; constructor; cbn [s_pc d_flag d_ups c_flag c_kids l_flag l_ups].
    - intros x H. apply mono_place. apply A. destruct H as [H|[H|[H|H]]]; auto; apply pend_unset in H as [H|H]; auto; cbn in H; intuition discriminate.
    - intros j x H. apply in_or_app. left. apply B. destruct H as [H|H]; auto. apply fset_in in H as [[-> H]|H]; auto. cbn in H; intuition discriminate.
    - intros x [H|H].
      + apply in_app_or in H as [H|H]; [apply mono_rel; auto|cbn in H; intuition discriminate].
      + apply pend_unset in H as [[H|[]]|H]; [|apply mono_rel; auto]. injection H as <-.
        exists i. rewrite !in_app_iff. cbn. specialize (GW eq_refl). tauto.
    - intros j H. apply in_or_app. left. apply D. destruct H as [H|H]; auto. apply fset_in in H as [[-> H]|H]; auto. cbn in H; intuition discriminate.
    - intros H. apply in_or_app. left. apply E. destruct H as [H|[H|H]]; auto. apply pend_unset in H as [H|H]; auto. cbn in H; intuition discriminate.
    - intros x H. assert (EX : exists i0, In (LUp i0 d) (tr ++ [LUp i d])) by (exists i; apply in_or_app; right; now left).
      destruct H as [H|[H|[H|H]]]; [apply mono_place; auto|apply mono_place; auto| |]; (apply pend_unset in H as [H|H]; [|apply mono_place; auto]);
        apply in_up in H; hs; try discriminate; injection H as ->; eauto.
    - intros j x H. apply in_or_app. destruct H as [H|H]; auto. apply fset_in in H as [[-> H]|H]; auto.
      apply in_up in H. hs; try discriminate. injection H as ->. right. now left.
    - intros x H. apply mono_rel. apply C. destruct H as [H|H].
      + left. apply in_app_or in H as [H|H]; auto. cbn in H; intuition discriminate.
      + right. apply pend_unset in H as [H|H]; auto. apply in_up in H. hs; discriminate.
    - intros j H. apply in_or_app. left. apply D. destruct H as [H|H]; auto. apply fset_in in H as [[-> H]|H]; auto. apply in_up in H. hs; discriminate.
    - intros H. apply in_or_app. left. apply E. destruct H as [H|[H|H]]; auto. apply pend_unset in H as [H|H]; auto. apply in_up in H. hs; discriminate.
  Qed.

  Lemma body_what : forall i c m, (forall d, c <> CUp d) -> In m (body op i c) ->
    (forall d, m <> MRel d /\ m <> MDAdd d /\ m <> MCAdd d /\ m <> MLAdd d) /\ m <> MCDisp /\ (m = MLDisp -> is_end c = true).
  Proof.
    intros i c m NU I. destruct c as [x|o| | | | ]; [now contradiction (NU x)| | | | | ]; cbn [body] in I; unfold own in I;
      destruct op; try destruct o; cbn [owns] in I; try destruct (i =? 0); cbn in I; repeat split; hs; subst; try discriminate; auto; try tauto.
  Qed.
  Lemma einv_begin : forall s tr i c, EInv s tr -> s_pc s i = [] -> (c = CDisp \/ (forall d, c <> CUp d) /\ gate op s i = false) ->
       EInv (with_pc s i (body op i c)) (tr ++ if is_end c then [LTerm i] else []).
  Proof.
    intros s tr i c [A B C D E] PC HC. assert (NU : forall d, c <> CUp d) by (destruct HC as [->|[H _]]; [discriminate|exact H]).
    pose proof (fun m => body_what i c m NU) as BW.
    unfold with_pc; constructor; cbn [s_pc d_flag d_ups c_flag c_kids l_flag l_ups].
    - intros x H. apply mono_place. apply A. destruct H as [H|[H|[H|H]]]; auto; apply pend_unset in H as [H|H]; auto; apply BW in H as (H & _); destruct (H x) as (_ & ? & ? & _); congruence.
    - intros j x H. apply in_or_app. left. apply B. destruct H as [H|H]; auto. apply fset_in in H as [[-> H]|H]; auto. apply BW in H as (H & _); destruct (H x) as (_ & _ & _ & ?); congruence.
    - intros x H. apply mono_rel. apply C. destruct H as [H|H].
      + left. apply in_app_or in H as [H|H]; auto. destruct (is_end c); cbn in H; intuition discriminate.
      + right. apply pend_unset in H as [H|H]; auto. apply BW in H as (H & _); destruct (H x) as (? & _); congruence.
    - intros j H. apply in_or_app. destruct H as [H|H]; auto. apply fset_in in H as [[-> H]|H]; auto. apply BW in H as (_ & _ & H). rewrite H; auto. right. now left.
    - intros H. apply in_or_app. left. apply E. destruct H as [H|[H|H]]; auto. apply pend_unset in H as [H|H]; auto. apply BW in H as (_ & H & _). congruence.
  Qed.

  Lemma pc_same : forall s i x s' l ls, mexec op s i x = (s', l, ls) -> s_pc s' = s_pc s.
  Proof.
    intros s i x s' l ls X. destruct s as [p df du cf ck lf lu md n kk st]. cbn [mexec] in X.
    destruct x; try destruct df; try destruct cf; try destruct (gate _ _ _); injection X as <- <- <-; reflexivity.
  Qed.
  Lemma fset_old : forall (p : nat -> list micro) i x r l k m, p i = x :: r -> In m (fset p i (l ++ r) k) -> k = i /\ In m l \/ In m (p k).
  Proof.
    intros p i x r l k m PC I. apply fset_in in I as [[-> I]|I]; auto. apply in_app_or in I as [I|I]; auto.
    right. rewrite PC. now right.
  Qed.

  Ltac fin := cbn in *; hs; repeat match goal with H : MRel _ = MRel _ |- _ => injection H as -> | H : LRel _ = LRel _ |- _ => injection H as -> end; subst; try discriminate; try contradiction; auto 8.
  Lemma mexec_effect : forall s i x s' l ls, mexec op s i x = (s', l, ls) ->
    (forall d, In d (d_ups s') -> In d (d_ups s) \/ x = MDAdd d) /\
    (forall d, In d (c_kids s') -> In d (c_kids s) \/ x = MCAdd d) /\
    (forall j d, In d (l_ups s' j) -> In d (l_ups s j) \/ j = i /\ x = MLAdd d) /\
    (forall j, l_flag s' j = true -> l_flag s j = true \/ j = i /\ x = MLDisp) /\
    (d_flag s' = true -> d_flag s = true \/ In LOver ls) /\
    (c_flag s' = true -> c_flag s = true \/ x = MCDisp) /\
    (forall d, In (LRel d) ls -> x = MRel d) /\
    (forall d, In (MRel d) l -> x = MDAdd d /\ d_flag s = true \/ x = MCAdd d /\ c_flag s = true \/
       In d (d_ups s) /\ In LOver ls \/ In d (c_kids s) /\ x = MCDisp \/ In d (l_ups s i) /\ x = MLDisp) /\
    (forall d, ~ In (MDAdd d) l /\ ~ In (MCAdd d) l /\ ~ In (MLAdd d) l) /\
    (In MLDisp l -> In (LTerm i) ls) /\
    (In MCDisp l -> In LOver ls).
  Proof.
    intros s i x s' l ls X. destruct s as [p df du cf ck lf lu md n kk st]. cbn [mexec] in X.
    destruct x; try destruct df; try destruct cf; try destruct (gate _ _ _); injection X as <- <- <-; cbn [d_ups c_kids l_ups l_flag d_flag c_flag]; unfold not;
      repeat match goal with |- _ /\ _ => split | |- forall _, _ => intro end; try (cbn in *; hs; subst; auto; try tauto; try discriminate; fail).
    all: try (apply in_app_or in H; fin; fail).
    all: try (apply in_rel in H as (? & H & ?); fin; fail).
    all: try (fin; fail).
    all: try (apply filter_In in H as [H _]; auto; fail).
    all: try (match goal with H : context[fset _ ?a _ ?j] |- _ => destruct (Nat.eq_dec j a) as [->|N]; [rewrite fset_eq in H|rewrite fset_ne in H by auto]; try (apply in_app_or in H as [H|[->|[]]]); auto; fail end).
    all: try (destruct op; destruct (n =? 1); fin; fail).
    all: try (destruct st; fin; fail).
    all: try (unfold own in *; destruct (owns op i); fin; fail).
    all: try (apply in_app_or in H as [H|H]; [destruct op; fin|apply in_rel in H as (? & H & ?); fin]; fail).
  Qed.

  Lemma einv_step : forall s tr i x r s' l ls, EInv s tr -> s_pc s i = x :: r -> mexec op s i x = (s', l, ls) ->
    EInv (with_pc s' i (l ++ r)) (tr ++ ls).
  Proof.
    intros s tr i x r s' l ls [A B C D E] PC X.
    pose proof (pc_same _ _ _ _ _ _ X) as PS. destruct (mexec_effect _ _ _ _ _ _ X) as (M1 & M2 & M3 & M4 & M5 & M6 & M7 & M8 & M9 & M10 & M11).
    assert (HX : pend (s_pc s) x) by (exists i; rewrite PC; now left).
    assert (HI : In x (s_pc s i)) by (rewrite PC; now left).
    assert (PB : forall m, pend (fset (s_pc s) i (l ++ r)) m -> In m l \/ pend (s_pc s) m) by (intros; eapply pend_back; eauto).
    unfold with_pc; constructor; cbn [s_pc d_flag d_ups c_flag c_kids l_flag l_ups]; rewrite ?PS.
    - intros d H. apply mono_place. apply A. destruct H as [H|[H|[H|H]]].
      + apply M1 in H as [H| ->]; auto.
      + apply M2 in H as [H| ->]; auto.
      + apply PB in H as [H|H]; auto. exfalso. destruct (M9 d) as (? & ? & ?); auto.
      + apply PB in H as [H|H]; auto. exfalso. destruct (M9 d) as (? & ? & ?); auto.
    - intros j d H. apply in_or_app. left. apply B. destruct H as [H|H].
      + apply M3 in H as [H|[-> ->]]; auto.
      + eapply fset_old in H as [[-> H]|H]; eauto. exfalso. destruct (M9 d) as (? & ? & ?); auto.
    - intros d H. destruct H as [H|H].
      + apply in_app_or in H as [H|H]; [apply mono_rel; auto|]. apply M7 in H. subst x. apply mono_rel. auto.
      + apply PB in H as [H|H]; [|apply mono_rel; auto]. apply M8 in H as [[-> H]|[[-> H]|[[H F]|[[H ->]|[H ->]]]]].
        * destruct (A d) as [j J]; auto. exists j. rewrite !in_app_iff. auto 7.
        * destruct (A d) as [j J]; auto. exists j. rewrite !in_app_iff. auto 7.
        * destruct (A d) as [j J]; auto. exists j. rewrite !in_app_iff. auto 7.
        * destruct (A d) as [j J]; auto. exists j. rewrite !in_app_iff. auto 7.
        * exists i. rewrite !in_app_iff. auto 7.
    - intros j H. apply in_or_app. destruct H as [H|H].
      + eapply fset_old in H as [[-> H]|H]; eauto.
      + apply M4 in H as [H|[-> ->]]; auto.
    - intros H. apply in_or_app. destruct H as [H|[H|H]].
      + apply M6 in H as [H| ->]; auto.
      + apply PB in H as [H|H]; auto.
      + apply M5 in H as [H|H]; auto.
  Qed.
  Theorem none_early : forall ms s tr, rrun op (r_init op) ms = (s, tr) -> not_early tr (finished tr).
  Proof.
    intros ms s tr E d I.
    assert (EI : EInv s tr) by (change tr with ([] ++ tr); eapply (rrun_inv EInv); eauto using einv_up, einv_begin, einv_step, einv_init).
    destruct EI as [A B C D F]. destruct (C d (or_introl I)) as (i & J & K). exists i. auto.
  Qed.

  (** *** A source that has ended is released, the others or not *)
  Record FInv (s : rs) (tr : list rlab) : Prop := {
    fi_shape : forall i, shape i (s_pc s i);
    fi_over : d_flag s = true -> In LOver tr;
    fi_term : forall i, owns op i = true -> In (LTerm i) tr -> l_flag s i = true \/ In MLDisp (s_pc s i);
    fi_up : forall i d, owns op i = true -> In (LUp i d) tr ->
      In (LRel d) tr \/ pend (s_pc s) (MRel d) \/ In (MLAdd d) (s_pc s i) \/ In d (l_ups s i);
    fi_flag : forall i, l_flag s i = true ->
      (forall d, ~ In (MLAdd d) (s_pc s i)) /\ forall d, In d (l_ups s i) -> In (LRel d) tr \/ pend (s_pc s) (MRel d);
    fi_none : forall i, owns op i = false -> In (LTerm i) tr ->
      d_flag s = true \/ pend (s_pc s) MDDisp \/ pend (s_pc s) MStop \/ stopped s = true;
    fi_stop : stopped s = true -> d_flag s = true \/ pend (s_pc s) MDDisp
  }.
  Lemma finv_init : FInv (r_init op) [].
  Proof. constructor; cbn; intros; try tauto; try discriminate. now apply ShMild. Qed.
  Lemma finv_up : forall s tr i d, FInv s tr -> s_pc s i = [] ->
    FInv (with_pc s i (if gate op s i then [MRel d] else up_body op i d)) (tr ++ [LUp i d]).
  Proof.
    intros s tr i d [SH A B C D E F] PC. set (b := if gate op s i then [MRel d] else up_body op i d).
    assert (PK : forall m, pend (s_pc s) m -> pend (fset (s_pc s) i b) m) by (intros; now apply pend_set).
    assert (NT : forall j, In (LTerm j) (tr ++ [LUp i d]) -> In (LTerm j) tr) by (intros j I; apply in_app_or in I as [I|I]; auto; cbn in I; intuition discriminate).
    unfold with_pc; constructor; cbn [s_pc d_flag d_ups c_flag c_kids l_flag l_ups stopped].
    - intro j. destruct (Nat.eq_dec j i) as [->|N]; [rewrite fset_eq|now rewrite fset_ne].
      unfold b. destruct (gate op s i); [now apply ShMild|apply shape_up].
    - intro H. apply in_or_app. auto.
    - intros j O I. destruct (B j O (NT _ I)) as [H|H]; auto. right. destruct (Nat.eq_dec j i) as [->|N]; [rewrite PC in H; destruct H|now rewrite fset_ne].
    - intros j e O I. apply in_app_or in I as [I|[I|[]]].
      + destruct (C j e O I) as [H|[H|[H|H]]]; auto.
        * left. apply in_or_app. auto.
        * right. right. left. destruct (Nat.eq_dec j i) as [->|N]; [rewrite PC in H; destruct H|now rewrite fset_ne].
      + injection I as -> ->. unfold b. destruct (gate op s j).
        * right. left. apply pend_in. now left.
        * right. right. left. rewrite fset_eq. unfold up_body, own. rewrite O. now left.
    - intros j L. destruct (D j L) as [D1 D2]. split.
      + intros e I. apply fset_in in I as [[-> I]|I]; [|now apply D1 in I]. unfold b in I. destruct (gate op s i) eqn:G; [cbn in I; intuition discriminate|].
        apply in_up in I. hs; try discriminate. unfold gate in G. rewrite H0, L in G. discriminate.
      + intros e I. destruct (D2 e I); auto. left. apply in_or_app. auto.
    - intros j O I. destruct (E j O (NT _ I)) as [H|[H|[H|H]]]; auto.
    - intro H. destruct (F H); auto.
  Qed.
  Lemma finv_begin : forall s tr i c, FInv s tr -> s_pc s i = [] -> (c = CDisp \/ (forall d, c <> CUp d) /\ gate op s i = false) ->
       FInv (with_pc s i (body op i c)) (tr ++ if is_end c then [LTerm i] else []).
  Proof.
    intros s tr i c [SH A B C D E F] PC HC. assert (NU : forall d, c <> CUp d) by (destruct HC as [->|[H _]]; [discriminate|exact H]).
    set (b := body op i c).
    assert (PK : forall m, pend (s_pc s) m -> pend (fset (s_pc s) i b) m) by (intros; now apply pend_set).
    assert (NT : forall j, In (LTerm j) (tr ++ if is_end c then [LTerm i] else []) -> In (LTerm j) tr \/ j = i /\ is_end c = true).
    { intros j I; apply in_app_or in I as [I|I]; auto. destruct (is_end c); cbn in I; [|tauto]. destruct I as [I|[]]. injection I as ->. auto. }
    assert (UU : forall j e, In (LUp j e) (tr ++ if is_end c then [LTerm i] else []) -> In (LUp j e) tr).
    { intros j e I; apply in_app_or in I as [I|I]; auto. destruct (is_end c); cbn in I; intuition discriminate. }
    unfold with_pc; constructor; cbn [s_pc d_flag d_ups c_flag c_kids l_flag l_ups stopped].
    - intro j. destruct (Nat.eq_dec j i) as [->|N]; [rewrite fset_eq|now rewrite fset_ne]. now apply shape_body.
    - intro H. apply in_or_app. auto.
    - intros j O I. apply NT in I as [I|[-> I]].
      + destruct (B j O I) as [H|H]; auto. right. destruct (Nat.eq_dec j i) as [->|N]; [rewrite PC in H; destruct H|now rewrite fset_ne].
      + right. rewrite fset_eq. unfold b. destruct c; try discriminate; cbn [body]; unfold own; rewrite O; apply in_or_app; right; now left.
    - intros j e O I. destruct (C j e O (UU _ _ I)) as [H|[H|[H|H]]]; auto.
      + left. apply in_or_app. auto.
      + right. right. left. destruct (Nat.eq_dec j i) as [->|N]; [rewrite PC in H; destruct H|now rewrite fset_ne].
    - intros j L. destruct (D j L) as [D1 D2]. split.
      + intros e I. apply fset_in in I as [[-> I]|I]; [|now apply D1 in I]. apply body_what in I as (I & _); auto. destruct (I e) as (_ & _ & _ & ?). congruence.
      + intros e I. destruct (D2 e I); auto. left. apply in_or_app. auto.
    - intros j O I. apply NT in I as [I|[-> I]].
      + destruct (E j O I) as [H|[H|[H|H]]]; auto.
      + assert (W : In MDDisp b \/ In MStop b).
        { unfold b. unfold owns in O. destruct c; try discriminate; cbn [body]; destruct op; try discriminate; rewrite ?in_app_iff; cbn; auto.
          destruct (i =? 0); [|discriminate]. cbn. auto. }
        destruct W; right; [left|right; left]; now apply pend_in.
    - intro H. destruct (F H); auto.
  Qed.

  Lemma mexec_effect2 : forall s i x s' l ls, mexec op s i x = (s', l, ls) ->
    (forall j d, In d (l_ups s j) -> In d (l_ups s' j)) /\
    (forall d, x = MLAdd d -> In d (l_ups s' i)) /\
    (forall j, l_flag s j = true -> l_flag s' j = true) /\
    (x = MLDisp -> l_flag s' i = true /\ forall d, In d (l_ups s i) -> In (MRel d) l) /\
    (d_flag s = true -> d_flag s' = true) /\
    (x = MDDisp -> d_flag s' = true) /\
    (x = MStop -> stopped s' = true /\ (stopped s = true \/ In MDDisp l)) /\
    (stopped s = true -> stopped s' = true) /\
    (stopped s' = true -> stopped s = true \/ x = MStop) /\
    (forall d, x = MRel d -> In (LRel d) ls) /\
    (forall j, In (LTerm j) ls -> j = i /\ x = MCatch /\ In MDDisp l /\ (owns op i = true -> In MLDisp l)).
  Proof.
    intros s i x s' l ls X. destruct s as [p df du cf ck lf lu md n kk st]. cbn [mexec] in X.
    destruct x; try destruct df; try destruct cf; try destruct (gate _ _ _); injection X as <- <- <-; cbn [d_ups c_kids l_ups l_flag d_flag c_flag stopped];
      repeat match goal with |- _ /\ _ => split | |- forall _, _ => intro end; try discriminate; auto; try (cbn in *; hs; subst; auto; try tauto; try discriminate; fail).
    all: try (match goal with |- context[fset _ ?a _ ?j] => destruct (Nat.eq_dec j a) as [->|N]; [rewrite fset_eq|rewrite fset_ne by auto] end; auto; try (apply in_or_app; auto); fail).
    all: try (injection H as ->; now left).
    all: try (injection H as ->; rewrite fset_eq; apply in_or_app; right; now left).
    all: try (destruct st; auto; right; now left).
    all: try (now rewrite fset_eq).
    all: try (now apply in_map).
    all: try (destruct H as [H|[]]; injection H as ->; auto; now left).
    all: try (destruct H as [H|[]]; injection H as ->; unfold own; rewrite H0; right; now left).
  Qed.

  Lemma finv_step : forall s tr i x r s' l ls, FInv s tr -> s_pc s i = x :: r -> mexec op s i x = (s', l, ls) ->
    FInv (with_pc s' i (l ++ r)) (tr ++ ls).
  Proof.
    intros s tr i x r s' l ls [SH A B C D E F] PC X.
    pose proof (pc_same _ _ _ _ _ _ X) as PS. destruct (mexec_effect _ _ _ _ _ _ X) as (_ & _ & M3 & M4 & M5 & _ & _ & _ & M9 & _ & _).
    destruct (mexec_effect2 _ _ _ _ _ _ X) as (N1 & N2 & N3 & N4 & N5 & N6 & N7 & N8 & N9 & N10 & N11).
    assert (SH' : forall j, shape j (fset (s_pc s) i (l ++ r) j)).
    { intro j. destruct (Nat.eq_dec j i) as [->|N]; [rewrite fset_eq|now rewrite fset_ne].
      eapply shape_step; [|exact X]. rewrite <- PC. apply SH. }
    assert (PK : forall m, pend (s_pc s) m -> m = x \/ pend (fset (s_pc s) i (l ++ r)) m) by (intros; eapply pend_keep; eauto).
    assert (PN : forall m, In m l -> pend (fset (s_pc s) i (l ++ r)) m) by (intros; now apply pend_here).
    assert (IK : forall j m, In m (s_pc s j) -> j = i /\ m = x \/ In m (fset (s_pc s) i (l ++ r) j)).
    { intros j m I. destruct (Nat.eq_dec j i) as [->|N]; [rewrite fset_eq|right; now rewrite fset_ne].
      rewrite PC in I. destruct I as [I|I]; auto. right. apply in_or_app. auto. }
    assert (RK : forall d, In (LRel d) tr \/ pend (s_pc s) (MRel d) -> In (LRel d) (tr ++ ls) \/ pend (fset (s_pc s) i (l ++ r)) (MRel d)).
    { intros d [H|H]; [left; apply in_or_app; auto|]. destruct (PK _ H) as [W|W]; auto. left. apply in_or_app. right. apply N10. auto. }
    assert (NU : forall j d, ~ In (LUp j d) ls) by (intros; eapply no_up; eauto).
    pose proof (SH i) as SHi. rewrite PC in SHi.
    unfold with_pc; constructor; cbn [s_pc d_flag d_ups c_flag c_kids l_flag l_ups stopped]; rewrite ?PS; auto.
    - intro H. apply in_or_app. apply M5 in H as [H|H]; auto.
    - intros j O I. apply in_app_or in I as [I|I].
      + destruct (B j O I) as [H|H]; auto. destruct (IK _ _ H) as [[-> W]|W]; auto. left. apply N4. auto.
      + apply N11 in I as (-> & _ & _ & I). right. rewrite fset_eq. apply in_or_app. auto.
    - intros j d O I. apply in_app_or in I as [I|I]; [|now apply NU in I].
      destruct (C j d O I) as [H|[H|[H|H]]]; auto.
      + destruct (RK d); auto.
      + destruct (RK d); auto.
      + destruct (IK _ _ H) as [[-> W]|W]; auto.
    - intros j L. apply M4 in L as [L|[-> ->]].
      + destruct (D j L) as [D1 D2]. split.
        * intros d I. eapply fset_old in I as [[-> I]|I]; eauto. { destruct (M9 d) as (? & ? & ?); auto. } now apply D1 in I.
        * intros d I. apply RK. apply D2. apply M3 in I as [I|[-> ->]]; auto. exfalso. eapply D1. rewrite PC. left. reflexivity.
      + rewrite (shape_ldisp_hd _ _ SHi), app_nil_r. rewrite fset_eq. split.
        * intros d. destruct (M9 d) as (? & ? & ?); auto.
        * intros d I. right. exists i. rewrite fset_eq. apply N4; auto. apply M3 in I as [I|[_ I]]; auto. discriminate.
    - intros j O I. apply in_app_or in I as [I|I].
      + destruct (E j O I) as [H|[H|[H|H]]]; auto.
        * destruct (PK _ H) as [W|W]; auto.
        * destruct (PK _ H) as [W|W]; auto. right. right. right. apply N7. auto.
      + apply N11 in I as (-> & _ & I & _). auto.
    - intro H. apply N9 in H as [H| ->].
      + destruct (F H) as [W|W]; auto. destruct (PK _ W); auto.
      + destruct (N7 eq_refl) as [_ [H|H]]; auto. destruct (F H) as [W|W]; auto. destruct (PK _ W); auto.
  Qed.
  Theorem ended_released : forall ms s tr i, rrun op (r_init op) ms = (s, tr) -> quiet s -> In (LTerm i) tr -> released tr i.
  Proof.
    intros ms s tr i R Q T d I.
    assert (FI : FInv s tr) by (change tr with ([] ++ tr); eapply (rrun_inv FInv); eauto using finv_up, finv_begin, finv_step, finv_init).
    destruct FI as [SH A B C D E F]. assert (NP : forall m, ~ pend (s_pc s) m) by (intros m (k & H); now rewrite Q in H).
    destruct (owns op i) eqn:O.
    - destruct (B i O T) as [L|L]; [|now rewrite Q in L]. destruct (C i d O I) as [H|[H|[H|H]]]; auto.
      + now apply NP in H.
      + now rewrite Q in H.
      + destruct (D i L) as [_ D2]. destruct (D2 d H) as [W|W]; auto. now apply NP in W.
    - assert (OV : In LOver tr).
      { apply A. destruct (E i O T) as [H|[H|[H|H]]]; auto; try now apply NP in H. destruct (F H) as [W|W]; auto. now apply NP in W. }
      eapply all_released; eauto.
  Qed.
End P.
