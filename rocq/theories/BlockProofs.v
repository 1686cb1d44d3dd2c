(** as_blocking: invariants. *)
From Coq Require Import Permutation.
From Verif Require Import Base Concur BlockSpec BlockModel.

Section BlockP.
  Context {V : Type}.
  Notation bitem := (bitem V). Notation blab := (blab V).

  Definition iDisp (i : bitem) := match i with BDisp => true | _ => false end.
  Definition iUp (i : bitem) := match i with BUp => true | _ => false end.
  Definition iLockD (i : bitem) := match i with BLockD => true | _ => false end.
  Definition iComp (i : bitem) := match i with BComp => true | _ => false end.
  Definition iUnD (i : bitem) := match i with BUnlockD => true | _ => false end.
  Definition iNote (i : bitem) := match i with BNote => true | _ => false end.
  Definition iPred (i : bitem) := match i with BPred => true | _ => false end.
  Definition iWait (i : bitem) := match i with BWait => true | _ => false end.
  Definition iUn (i : bitem) := match i with BUnlock => true | _ => false end.
  Definition iEnd (i : bitem) := match i with BEnd => true | _ => false end.

  Record B (s : bst) (G : list bitem) (tr : list blab) : Prop := MkB {
    v_lock : (if b_lock s then 1 else 0) = count iComp G + count iUnD G + count iPred G + count iUn G;
    v_flag : b_flag s = true -> over tr;
    v_pend : 1 <= count iDisp G + count iUp G -> over tr;
    v_end : 1 <= count iEnd G + count iUn G -> b_flag s = true;
    v_comp : b_flag s = true <-> b_comp s = true \/ 1 <= count iLockD G + count iComp G;
    v_over : over tr -> b_flag s = true \/ 1 <= count iDisp G + count iUp G;
    v_wait : 1 <= count iWait G -> b_woken s = false -> b_comp s = false \/ 1 <= count iUnD G + count iNote G;
    v_blocks : blocks tr
  }.

  Lemma over_app : forall (tr ls : list blab), over tr -> over (tr ++ ls).
  Proof. intros tr ls [I|(e & T & I)]; [left|right; exists e; split; auto]; apply in_or_app; auto. Qed.
  Lemma blocks_app : forall (tr ls : list blab), blocks tr -> ~ In JReturn ls -> blocks (tr ++ ls).
  Proof.
    intros tr ls BL N a b E. revert a b E BL. induction ls as [|l ls IH] using rev_ind; intros a b E BL; [rewrite app_nil_r in E; eauto|].
    rewrite app_assoc in E. destruct b as [|x b] using rev_ind.
    - apply app_inj_tail in E as (_ & ->). destruct N. apply in_or_app. right. now left.
    - rewrite app_comm_cons, app_assoc in E. apply app_inj_tail in E as (E & _). eapply IH; eauto. intro I. apply N. apply in_or_app. auto.
  Qed.
  Lemma blocks_ret : forall (tr : list blab), blocks tr -> over tr -> blocks (tr ++ [JReturn]).
  Proof.
    intros tr BL O a b E. destruct b as [|x b] using rev_ind; [apply app_inj_tail in E as (<- & _); auto|].
    rewrite app_comm_cons, app_assoc in E. apply app_inj_tail in E as (E & _). eauto.
  Qed.
  Lemma over_snoc : forall (tr : list blab) l, over (tr ++ [l]) -> over tr \/ l = JDispose \/ exists e, is_term e = true /\ l = JRet e.
  Proof.
    intros tr l [I|(e & T & I)]; apply in_app_or in I as [I|[->|[]]]; eauto; left; [now left|right; eauto].
  Qed.

  Ltac cts := rewrite ?count_app, ?count_cons, ?count_nil in *; cbn [iDisp iUp iLockD iComp iUnD iNote iPred iWait iUn iEnd b_obs b_flag b_lock b_comp b_woken Nat.add] in *.

  Lemma B_step : forall s it G tr s' its ls, B s (it :: G) tr -> bstep s it = Some (s', its, ls) -> B s' (its ++ G) (tr ++ ls).
  Proof.
    intros [ob fl lk cm wk] it G tr s' its ls [LO FL PE EN CO OV WA BL] Q.
    assert (SN : forall l, (l <> JReturn) -> blocks (tr ++ [l])) by (intros l N; apply blocks_app; auto; intros [|[]]; auto).
    assert (OS : forall l, (l <> JDispose) -> (forall e, is_term e = true -> l <> JRet e) -> over (tr ++ [l]) -> over tr).
    { intros l N1 N2 O. apply over_snoc in O as [O|[O|(x & T & O)]]; [auto|now destruct N1|now destruct (N2 x)]. }
    destruct it as [e|e|e| | | | | | | | | | | | | | |]; cbn [bstep b_obs b_flag b_lock b_comp b_woken] in Q;
      repeat match type of Q with (if ?b then _ else _) = _ => destruct b end; inversion Q; subst s' its ls; clear Q;
      try (destruct (is_term e) eqn:TE); rewrite ?app_nil_r; split; cts; auto using over_app; try lia;
      try (destruct lk; lia); try (apply SN; congruence); try (intros; apply PE; lia);
      try (intros; apply EN; lia); try discriminate;
      try (intro O; destruct (OV O); [now left|right; lia]);
      try (intro O; apply OV; eapply OS; eauto; congruence).
    - intros _. right. exists e. split; auto. apply in_or_app. right. now left.
    - split; [lia|]. intros _. apply CO. right. lia.
    - split; auto. intros _. apply CO. right. lia.
    - intros _. left. apply in_or_app. right. now left.
    - intros _. apply CO. auto.
    - apply blocks_ret; auto. apply FL, EN. lia.
  Qed.

  Lemma B_perm : forall s l l' tr, Permutation l l' -> B s l tr -> B s l' tr.
  Proof.
    intros s l l' tr P [LO FL PE EN CO OV WA BL].
    split; rewrite <- ?(count_perm _ _ _ P); auto.
  Qed.

  Definition base (i : bitem) : bool := match i with BEv _ | BUser | BSpur | BChk => true | _ => false end.
  Lemma base_count : forall f l, (forall i, base i = true -> f i = false) -> forallb base l = true -> count f l = 0.
  Proof. intros f l H F. apply count_zero_of. intros x I. apply H. rewrite forallb_forall in F. auto. Qed.
  Lemma start_base : forall (es0 : list (ev V)) ts t, In t (snd (b_start es0 ts)) -> forallb base t = true.
  Proof.
    intros es0 ts t I. apply forallb_forall. intros x J. cbn in I. destruct I as [<-|I].
    - apply in_app_or in J as [J|[<-|[]]]; auto. apply in_map_iff in J as (e & <- & _). reflexivity.
    - apply in_map_iff in I as (as_ & <- & _). apply in_map_iff in J as ([| |] & <- & _); reflexivity.
  Qed.

  Lemma B_exec : forall (es0 : list (ev V)) ts tr c, gexec bstep (b_start es0 ts) tr c -> B (fst c) (concat (snd c)) tr.
  Proof.
    intros es0 ts tr c E. refine (gexec_inv bstep B B_perm _ _ _ _ E _).
    - intros. eapply B_step; eauto.
    - assert (BA : forallb base (concat (snd (b_start es0 ts))) = true).
      { apply forallb_forall. intros x I. apply in_concat in I as (t & I & J). pose proof (start_base _ _ _ I) as F.
        rewrite forallb_forall in F. auto. }
      cbn [fst b_start b_init]. split; rewrite ?(base_count iDisp), ?(base_count iUp), ?(base_count iLockD), ?(base_count iComp), ?(base_count iUnD), ?(base_count iNote), ?(base_count iPred), ?(base_count iWait), ?(base_count iUn), ?(base_count iEnd); auto; try (intros []; cbn; congruence); cbn; try lia; try discriminate.
      + intros [[]|(e & _ & [])].
  Qed.

  Definition shape (t : list bitem) : Prop := t = [] \/ exists x rest, t = x :: rest /\ forallb base rest = true.
  Lemma shape_exec : forall (es0 : list (ev V)) ts tr c, gexec bstep (b_start es0 ts) tr c -> forall t, In t (snd c) -> shape t.
  Proof.
    intros es0 ts tr c E. refine (gexec_tinv bstep (fun _ ts _ => forall t, In t ts -> shape t) _ _ _ _ E _).
    - intros s ts1 it rest ts2 tr' s' its ls H Q t I. apply in_app_or in I as [I|[<-|I]].
      + apply H. apply in_or_app. auto.
      + assert (R : forallb base rest = true).
        { destruct (H (it :: rest)) as [|(x & r & X & R)]; [apply in_or_app; right; now left|discriminate|]. now inversion X; subst. }
        assert (SI : its = [] \/ exists x, its = [x]).
        { destruct it; cbn in Q; repeat match type of Q with context [if ?b then _ else _] => destruct b end; inversion Q; eauto. }
        destruct SI as [->|(x & ->)]; [|right; exists x, rest; auto].
        destruct rest as [|y r]; [now left|]. right. exists y, r. cbn in R. apply andb_true_iff in R as (_ & R). auto.
      + apply H. apply in_or_app. right. now right.
    - intros t I. apply start_base in I. destruct t as [|x r]; [now left|]. right. exists x, r. cbn in I. apply andb_true_iff in I as (_ & I). auto.
  Qed.

  Lemma no_hang : forall (es0 : list (ev V)) ts tr c, gexec bstep (b_start es0 ts) tr c -> over tr ->
    (forall ls c', ~ gstep (bstep (V:=V)) c ls c') -> gfinished c.
  Proof.
    intros es0 ts tr [s cs] E O NS. pose proof (B_exec _ _ _ _ E) as [LO FL PE EN CO OV WA BL]. cbn [fst snd] in *.
    pose proof (shape_exec _ _ _ _ E) as SH. cbn [snd] in SH.
    assert (HB : forall f, (forall i, base i = true -> f i = false) -> (forall i, f i = true -> bstep s i <> None) -> count f (concat cs) = 0).
    { intros f FB FR. apply count_zero_of. intros x I. destruct (f x) eqn:FX; auto. exfalso.
      apply in_concat in I as (t & I & J). destruct (SH t I) as [->|(y & r & -> & R)]; [destruct J|].
      destruct J as [->|J]; [|rewrite forallb_forall in R; specialize (FB x (R x J)); congruence].
      apply in_split in I as (a & b & ->). destruct (bstep s x) as [[[s' its] ls]|] eqn:Q; [|now apply (FR x FX)].
      eapply NS. econstructor. exact Q. }
    rewrite (HB iComp), (HB iUnD), (HB iPred), (HB iUn) in LO; try (intros []; cbn; intros; congruence).
    2:{ intros []; cbn; try congruence. intros _. destruct (b_comp s); congruence. }
    assert (LK : b_lock s = false) by (destruct (b_lock s); auto; discriminate). clear LO.
    rewrite (HB iDisp), (HB iUp) in OV; try (intros []; cbn; intros; congruence).
    2:{ intros []; cbn; try congruence. intros _. destruct (b_flag s); congruence. }
    destruct (OV O) as [F|F]; [|lia]. apply CO in F. rewrite (HB iLockD), (HB iComp) in F; try (intros []; cbn; intros; congruence).
    2:{ intros []; cbn; try congruence. intros _. rewrite LK. congruence. }
    destruct F as [F|F]; [|lia]. rewrite (HB iUnD), (HB iNote) in WA; try (intros []; cbn; intros; congruence).
    intros t I. destruct t as [|x r]; auto. exfalso. cbn in I.
    destruct (bstep s x) as [[[s' its] ls]|] eqn:Q.
    - apply in_split in I as (a & b & ->). eapply NS. econstructor. exact Q.
    - assert (W : x = BWait /\ b_woken s = false).
      { destruct x; cbn in Q; rewrite ?LK in Q; repeat match type of Q with (if ?b then _ else _) = _ => destruct b end; try discriminate; auto. }
      destruct W as (-> & W). destruct (WA) as [G|G]; auto; try lia; [|congruence].
      apply (count_in _ _ BWait); auto. apply in_concat. exists (BWait :: r). split; auto. now left.
  Qed.

  (** One source thread. *)
  Definition quiet (i : bitem) : bool := match i with BEv _ | BCall _ | BRet _ | BUser | BDisp => false | _ => true end.
  Definition evs (tr : list blab) : list blab := filter (fun l => negb (is_return l)) tr.
  Lemma quiet_step : forall s it s' its ls, quiet it = true -> bstep s it = Some (s', its, ls) ->
    b_obs s' = b_obs s /\ forallb quiet its = true /\ evs ls = [].
  Proof.
    intros s it s' its ls H Q.
    destruct it; cbn in H; try discriminate; cbn in Q; repeat match type of Q with (if ?b then _ else _) = _ => destruct b end; inversion Q; subst; auto.
  Qed.
  Lemma evs_app : forall a b, evs (a ++ b) = evs a ++ evs b.
  Proof. intros. apply filter_app. Qed.
  Lemma calls_app : forall (a b : list (ev V)), calls (a ++ b) = calls a ++ calls b.
  Proof. intros. apply flat_map_app. Qed.

  Inductive O (es : list (ev V)) (s : bst) : list bitem -> list blab -> Prop :=
  | OA : forall q dn todo tail tr, forallb quiet q = true -> forallb quiet tail = true -> es = dn ++ todo ->
      evs tr = calls dn -> (b_obs s = true -> todo = []) -> O es s (q ++ map BEv todo ++ tail) tr
  | OB0 : forall e dn todo tail tr, forallb quiet tail = true -> es = dn ++ e :: todo ->
      evs tr = calls dn -> b_obs s = false -> O es s (BCall e :: map BEv todo ++ tail) tr
  | OB : forall e dn todo tail tr, forallb quiet tail = true -> es = dn ++ e :: todo ->
      evs tr = calls dn ++ [JCall e] -> b_obs s = false -> O es s (BRet e :: map BEv todo ++ tail) tr
  | OC : forall tail tr, forallb quiet tail = true -> evs tr = calls es -> O es s (BDisp :: tail) tr.

  Lemma O_quiet : forall es s t tr s' ls, O es s t tr -> b_obs s' = b_obs s -> evs ls = [] -> O es s' t (tr ++ ls).
  Proof.
    intros es s t tr s' ls H EO EL. destruct H as [q dn todo tail tr H1 H2 H3 H4 H5|e dn todo tail tr H1 H2 H3 H4|e dn todo tail tr H1 H2 H3 H4|tail tr H1 H2].
    - apply OA with (dn := dn); auto; [now rewrite evs_app, EL, app_nil_r|now rewrite EO].
    - apply OB0 with (dn := dn); auto; [now rewrite evs_app, EL, app_nil_r|now rewrite EO].
    - apply OB with (dn := dn); auto; [now rewrite evs_app, EL, app_nil_r|now rewrite EO].
    - apply OC; auto. rewrite evs_app, EL, app_nil_r; auto.
  Qed.
  Lemma O_step : forall es s it rest tr s' its ls, stream es -> O es s (it :: rest) tr -> bstep s it = Some (s', its, ls) ->
    O es s' (its ++ rest) (tr ++ ls).
  Proof.
    intros es s it rest tr s' its ls ST H Q. inversion H as [q dn todo tail tr' H1 H2 H3 H4 H5 E1|e dn todo tail tr' H1 H2 H3 H4 E1|e dn todo tail tr' H1 H2 H3 H4 E1|tail tr' H1 H2 E1]; subst tr'.
    - destruct q as [|x q].
      + destruct todo as [|e todo]; cbn in E1.
        * subst tail. cbn in H2. apply andb_true_iff in H2 as (H2 & H6). destruct (quiet_step _ _ _ _ _ H2 Q) as (A1 & A2 & A3).
          change (its ++ rest) with (its ++ map BEv [] ++ rest). apply OA with (dn := dn); auto; now rewrite evs_app, A3, app_nil_r.
        * inversion E1; subst it rest. cbn in Q. destruct (b_obs s) eqn:OB1; [discriminate (H5 eq_refl)|]. inversion Q; subst.
          cbn [app]. eapply OB0; eauto. rewrite app_nil_r. exact H4.
      + cbn in E1. inversion E1; subst it rest. cbn in H1. apply andb_true_iff in H1 as (H1 & H6). destruct (quiet_step _ _ _ _ _ H1 Q) as (A1 & A2 & A3).
        rewrite app_assoc. apply OA with (dn := dn); auto; [now rewrite forallb_app, A2|now rewrite evs_app, A3, app_nil_r|now rewrite A1].
    - subst it rest. cbn in Q. inversion Q; subst s' its ls. cbn [app]. eapply OB; eauto. rewrite evs_app, H3. reflexivity.
    - subst it rest. cbn in Q. inversion Q; subst s' its ls. destruct (is_term e) eqn:TE.
      + assert (todo = []) by (eapply ST; eauto). subst todo. cbn. apply OC; auto. rewrite evs_app, H3, H2, calls_app, <- app_assoc. reflexivity.
      + cbn [app]. change (map BEv todo ++ tail) with ([] ++ map BEv todo ++ tail). apply OA with (dn := dn ++ [e]); auto.
        * now rewrite <- app_assoc.
        * rewrite evs_app, H3, calls_app, <- app_assoc. reflexivity.
        * congruence.
    - subst it rest. cbn in Q. inversion Q; subst s' its ls. change ([BUp] ++ tail) with ([BUp] ++ map BEv [] ++ tail).
      apply OA with (dn := es); auto; now rewrite ?app_nil_r.
  Qed.

  Lemma two_splits : forall X (a : list X) x b c y d, a ++ x :: b = c ++ y :: d ->
    a = c /\ x = y /\ b = d \/ (exists k, c = a ++ x :: k /\ b = k ++ y :: d) \/ (exists k, a = c ++ y :: k /\ d = k ++ x :: b).
  Proof.
    induction a as [|p a IH]; intros x b [|q c] y d E; cbn in E; inversion E; subst; auto.
    - right. left. exists c. auto.
    - right. right. exists a. auto.
    - destruct (IH _ _ _ _ _ H1) as [(-> & -> & ->)|[(k & -> & ->)|(k & -> & ->)]]; [auto|right; left; exists k; auto|right; right; exists k; auto].
  Qed.

  Lemma O_exec : forall es c0 tr c, stream es -> gexec bstep c0 tr c ->
    (exists a t b, snd c0 = a ++ t :: b /\ forallb (forallb quiet) a = true /\ forallb (forallb quiet) b = true /\ O es (fst c0) t []) ->
    exists a t b, snd c = a ++ t :: b /\ forallb (forallb quiet) a = true /\ forallb (forallb quiet) b = true /\ O es (fst c) t tr.
  Proof.
    intros es c0 tr c ST E H0.
    refine (gexec_tinv bstep (fun s ts tr => exists a t b, ts = a ++ t :: b /\ forallb (forallb quiet) a = true /\ forallb (forallb quiet) b = true /\ O es s t tr) _ _ _ _ E H0).
    clear E H0. intros s ts1 it rest ts2 tr0 s' its ls (a & t & b & T & QA & QB & OO) Q.
    apply two_splits in T as [(-> & <- & ->)|[(k & -> & ->)|(k & -> & ->)]].
    - exists a, (its ++ rest), b. split; [|split; [|split]]; auto. eapply O_step; eauto.
    - rewrite !forallb_app in QA. cbn in QA. apply andb_true_iff in QA as (QA & QC). apply andb_true_iff in QC as (QC & QD). apply andb_true_iff in QC as (QC & QE).
      destruct (quiet_step _ _ _ _ _ QC Q) as (A1 & A2 & A3). exists (ts1 ++ (its ++ rest) :: k), t, b.
      split; [now rewrite <- app_assoc|]. split; [|split; auto].
      + rewrite forallb_app. cbn. now rewrite forallb_app, QA, A2, QE, QD.
      + eapply O_quiet; eauto.
    - rewrite !forallb_app in QB. cbn in QB. apply andb_true_iff in QB as (QB & QC). apply andb_true_iff in QC as (QC & QD). apply andb_true_iff in QC as (QC & QE).
      destruct (quiet_step _ _ _ _ _ QC Q) as (A1 & A2 & A3). exists a, t, (k ++ (its ++ rest) :: ts2).
      split; [now rewrite <- app_assoc|]. split; [|split]; auto.
      + rewrite forallb_app. cbn. now rewrite forallb_app, QB, A2, QE, QD.
      + eapply O_quiet; eauto.
  Qed.
  Lemma O_out : forall es s t tr, O es s t tr -> exists r, evs tr ++ r = calls es.
  Proof.
    intros es s t tr H. destruct H as [q dn todo tail tr H1 H2 H3 H4 H5|e dn todo tail tr H1 H2 H3 H4|e dn todo tail tr H1 H2 H3 H4|tail tr H1 H2].
    - exists (calls todo). now rewrite H4, H3, calls_app.
    - exists (calls (e :: todo)). now rewrite H3, H2, calls_app.
    - exists (JRet e :: calls todo). rewrite H3, H2, calls_app, <- app_assoc. reflexivity.
    - exists []. now rewrite app_nil_r.
  Qed.

  (** subscribe returns once. *)
  Definition waiter (i : bitem) : bool := match i with BChk | BLock | BPred | BWait | BRelock | BUnlock | BEnd => true | _ => false end.
  Lemma ret_once : forall (es0 : list (ev V)) ts tr c, gexec bstep (b_start es0 ts) tr c ->
    length (filter is_return tr) + count waiter (concat (snd c)) = 1.
  Proof.
    intros es0 ts tr c E. refine (gexec_inv bstep (fun _ G tr => length (filter is_return tr) + count waiter G = 1) _ _ _ _ _ E _).
    - intros s l l' tr' P H. now rewrite <- (count_perm _ _ _ P).
    - intros s it l tr' s' its ls H Q. rewrite count_cons in H. rewrite count_app, filter_app, app_length.
      destruct it; cbn in Q; repeat match type of Q with context [if ?b then _ else _] => destruct b end; inversion Q; subst; rewrite ?count_cons, ?count_nil; cbn [waiter filter is_return length] in *; lia.
    - cbn [snd b_start concat]. rewrite !count_app. cbn. rewrite (count_zero_of waiter (map BEv es0)), (count_zero_of waiter (concat _)); auto.
      + intros x I. apply in_concat in I as (t & I & J). apply in_map_iff in I as (as_ & <- & _). apply in_map_iff in J as ([| |] & <- & _); reflexivity.
      + intros x I. apply in_map_iff in I as (e & <- & _). reflexivity.
  Qed.

  Lemma calls_term : forall (es : list (ev V)) p r e, stream es -> p ++ r = calls es -> In (JRet e) p -> is_term e = true -> r = [].
  Proof.
    induction es as [|x es IH]; intros p r e ST E I T; cbn in E.
    - apply app_eq_nil in E as (-> & _). destruct I.
    - destruct p as [|l1 p]; [destruct I|]. inversion E; subst l1. destruct I as [I|I]; [discriminate|].
      destruct p as [|l2 p]; [destruct I|]. inversion E; subst l2. destruct I as [I|I].
      + inversion I; subst x. assert (es = []) as -> by (apply (ST [] e es); auto). cbn in *. destruct p, r; auto; discriminate.
      + eapply IH with (p := p); eauto. intros a y b -> TY. eapply (ST (x :: a)); eauto. reflexivity.
  Qed.
  Lemma calls_nodisp : forall (es : list (ev V)), ~ In JDispose (calls es).
  Proof. intros es I. apply in_flat_map in I as (e & _ & [|[|[]]]); discriminate. Qed.
  (** Callbacks that have passed the check but not yet started; once the observer is disposed
      their number only goes down. *)
  Definition iCall (i : bitem) : bool := match i with BCall _ => true | _ => false end.
  Lemma shapes_le : forall l, (forall t, In t l -> shape t) -> count iCall (concat l) <= length l.
  Proof.
    induction l as [|t l IH]; cbn; intro SH; [auto|]. rewrite count_app.
    assert (count iCall t <= 1).
    { destruct (SH t (or_introl eq_refl)) as [->|(x & r & -> & B)]; [cbn; auto|]. rewrite count_cons, (base_count iCall r); auto.
      - destruct (iCall x); lia.
      - intros []; cbn; congruence. }
    specialize (IH (fun t I => SH t (or_intror I))). lia.
  Qed.
  Lemma threads_len : forall (c0 : bst * list (list bitem)) tr c, gexec bstep c0 tr c -> length (snd c) = length (snd c0).
  Proof.
    intros c0 tr c E. refine (gexec_tinv bstep (fun _ ts _ => length ts = length (snd c0)) _ _ _ _ E eq_refl).
    intros s ts1 it rest ts2 tr' s' its ls H _. rewrite app_length in *. cbn in *. lia.
  Qed.
  (** Nothing new passes the check after the return. *)
  Definition late (s : bst) (G : list bitem) (tr : list blab) : Prop :=
    B s G tr /\ (b_flag s = true -> b_obs s = true) /\ (1 <= count iUp G -> b_obs s = true) /\
    (In JReturn tr -> b_obs s = true).
  Lemma late_exec : forall (es0 : list (ev V)) ts tr c, gexec bstep (b_start es0 ts) tr c ->
    late (fst c) (concat (snd c)) tr.
  Proof.
    intros es0 ts tr c E. refine (gexec_inv bstep late _ _ _ _ _ E _).
    - intros s l l' tr' P (H1 & H2 & H3 & H4). split; [eapply B_perm; eauto|]. rewrite <- (count_perm _ _ _ P). auto.
    - intros s it l tr' s' its ls (H1 & H2 & H3 & H4) Q. split; [eapply B_step; eauto|].
      assert (H5 := v_end _ _ _ H1). rewrite in_app_iff. destruct s as [ob fl lk cm wk].
      destruct it; cbn [bstep b_obs b_flag b_lock b_comp b_woken] in Q; repeat match type of Q with context [if ?b then _ else _] => destruct b end;
        inversion Q; subst s' its ls; clear Q; cts; cbn [In]; repeat split; auto; try lia; try (intros; apply H3; lia);
        intros [X|X]; auto; try tauto; try (destruct X; [discriminate|tauto]).
      apply H2, H5. lia.
    - split; [exact (B_exec _ _ _ _ (GNil _ _))|]. cbn [fst b_start b_init b_flag b_obs In]. repeat split; try discriminate; [|tauto].
      rewrite (base_count iUp); [lia|intros []; cbn; congruence|]. apply forallb_forall. intros x I. apply in_concat in I as (t & I & J).
      pose proof (start_base _ _ _ I) as F. rewrite forallb_forall in F. auto.
  Qed.
  Lemma late_calls : forall (es0 : list (ev V)) ts tr c, gexec bstep (b_start es0 ts) tr c ->
    forall a b, tr = a ++ JReturn :: b -> length (filter is_call b) <= length ts.
  Proof.
    intros es0 ts tr c E a b H.
    cut (forall a b, tr = a ++ JReturn :: b -> S (length (filter is_call b) + count iCall (concat (snd c))) <= length (snd c)).
    { intro X. specialize (X a b H). rewrite (threads_len _ _ _ E) in X. cbn [snd b_start length] in X. rewrite map_length in X. lia. }
    clear a b H. remember (b_start es0 ts) as c0. revert Heqc0.
    induction E as [c0|c0 tr c1 ls c2 E IH G]; intros -> a b H; [destruct a; discriminate|].
    specialize (IH eq_refl). pose proof (late_exec _ _ _ _ E) as (_ & _ & _ & OB1).
    pose proof (shape_exec _ _ _ _ (GSnoc _ _ _ _ _ _ E G)) as SH2.
    destruct G as [s ts1 it rest ts2 s' its ls Q]. cbn [fst snd] in *.
    assert (LEN : length (ts1 ++ (it :: rest) :: ts2) = length (ts1 ++ (its ++ rest) :: ts2)) by (rewrite !app_length; reflexivity).
    assert (LS : ls = [] \/ exists l, ls = [l] ).
    { destruct it; cbn in Q; repeat match type of Q with context [if ?b then _ else _] => destruct b end; inversion Q; eauto. }
    assert (ST : forall a b, tr = a ++ JReturn :: b -> S (length (filter is_call (b ++ ls)) + count iCall (concat (ts1 ++ (its ++ rest) :: ts2))) <= length (ts1 ++ (its ++ rest) :: ts2)).
    { intros a0 b0 H0. specialize (IH a0 b0 H0). assert (OB2 : b_obs s = true) by (apply OB1; rewrite H0; apply in_or_app; right; now left).
      rewrite <- LEN. rewrite concat_app in *. cbn [concat] in *. rewrite !count_app in *. rewrite count_cons in IH. rewrite filter_app, app_length.
      destruct s as [ob fl lk cm wk]. cbn in OB2. subst ob.
      destruct it; cbn [bstep b_obs b_flag b_lock b_comp b_woken] in Q; repeat match type of Q with context [if ?b then _ else _] => destruct b end;
        inversion Q; subst s' its ls; cbn [iCall filter is_call length app] in *; rewrite ?count_cons, ?count_nil, ?count_app in *; cbn [iCall] in *; lia. }
    destruct LS as [->|(l & ->)].
    - rewrite app_nil_r in H. specialize (ST a b H). now rewrite app_nil_r in ST.
    - destruct b as [|x b] using rev_ind.
      + apply app_inj_tail in H as (-> & ->).
        assert (IT : it = BEnd) by (destruct it; cbn in Q; repeat match type of Q with context [if ?b then _ else _] => destruct b end; inversion Q; reflexivity).
        subst it. inversion Q; subst s' its. destruct (shape_exec _ _ _ _ E (BEnd :: rest)) as [|(x & r & X & R)]; [cbn; apply in_or_app; right; now left|discriminate|].
        inversion X; subst x r. cbn [filter is_call length app Nat.add] in *. rewrite concat_app, app_length. cbn [concat length]. rewrite !count_app, (base_count iCall rest); auto; [|intros []; cbn; congruence].
        pose proof (shapes_le ts1) as A1. pose proof (shapes_le ts2) as A2.
        assert (count iCall (concat ts1) <= length ts1) by (apply A1; intros t T; apply SH2; apply in_or_app; auto).
        assert (count iCall (concat ts2) <= length ts2) by (apply A2; intros t T; apply SH2; apply in_or_app; right; now right). lia.
      + rewrite app_comm_cons, app_assoc in H. apply app_inj_tail in H as (H & ->). exact (ST a b H).
  Qed.
End BlockP.
