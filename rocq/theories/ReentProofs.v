From Verif Require Import Base Machine MachineProofs OpsModel OpsSpec OpsProofs ObserverSpec ChainSpec ChainModel ChainProofs ReentSpec ReentModel.

Section Gen.
  Context {A B : Type} (o : rop A B).
  Notation S := (ro_S o).
  Notation st_t := (rst o).

  (** Run to the end, every callback returning at once. *)
  Fixpoint all (p : prog S B) (st : st_t) : st_t :=
    match p with
    | Ret => st
    | Raise x => if r_dead st then st
                 else RSt (r_s st) true (r_over st) (r_wait st) (r_log st ++ [Err x]) (r_ub st)
    | Get k => all (k (r_s st)) st
    | Put s q => all q (RSt s (r_dead st) (r_over st) (r_wait st) (r_log st) (r_ub st))
    | Emit e q =>
        if r_dead st then all q st
        else all q (RSt (r_s st) (is_term e) (r_over st) (r_wait st) (r_log st ++ [e]) (r_ub st))
    | Undef => RSt (r_s st) (r_dead st) (r_over st) (r_wait st) (r_log st) true
    end.
  Definition strip (st : st_t) : st_t := RSt (r_s st) (r_dead st) (r_over st) [] (r_log st) (r_ub st).
  Definition seqstep (st : st_t) (e : ev A) : st_t :=
    let st := RSt (r_s st) (r_dead st) (r_over st || is_term e) (r_wait st) (r_log st) (r_ub st) in
    if r_dead st then st else all (method o e) st.
  Definition sseq (l : list (ev A)) : st_t := fold_left seqstep l (r_init o).

  (** A method whose downstream on_next call is the last thing it does. *)
  Fixpoint tailp (p : prog S B) : Prop :=
    match p with
    | Ret | Raise _ | Undef => True
    | Get k => forall s, tailp (k s)
    | Put _ q => tailp q
    | Emit (Next _) q => q = Ret
    | Emit _ q => tailp q
    end.
  Fixpoint okp (inv : S -> Prop) (p : prog S B) : Prop :=
    match p with
    | Ret | Raise _ => True
    | Undef => False
    | Get k => forall s, inv s -> okp inv (k s)
    | Put s q => inv s /\ okp inv q
    | Emit _ q => okp inv q
    end.

  Lemma all_prefix : forall p st, exists rest, r_log (all p st) = r_log st ++ rest.
  Proof.
    induction p as [|x|k IH|s q IH|e q IH|]; intro st; cbn [all].
    - exists []. now rewrite app_nil_r.
    - destruct (r_dead st); [exists []; now rewrite app_nil_r|exists [Err x]; reflexivity].
    - apply IH.
    - destruct (IH (RSt s (r_dead st) (r_over st) (r_wait st) (r_log st) (r_ub st))) as (r & E). exists r. exact E.
    - destruct (r_dead st); [apply IH|].
      destruct (IH (RSt (r_s st) (is_term e) (r_over st) (r_wait st) (r_log st ++ [e]) (r_ub st))) as (r & E).
      exists (e :: r). rewrite E. cbn [r_log]. now rewrite <- app_assoc.
    - exists []. cbn. now rewrite app_nil_r.
  Qed.
  Lemma all_strip : forall p st, strip (all p st) = all p (strip st).
  Proof.
    induction p as [|x|k IH|s q IH|e q IH|]; intro st; cbn [all].
    - reflexivity.
    - change (r_dead (strip st)) with (r_dead st). destruct (r_dead st); reflexivity.
    - rewrite IH. reflexivity.
    - rewrite IH. reflexivity.
    - change (r_dead (strip st)) with (r_dead st). destruct (r_dead st); rewrite IH; reflexivity.
    - reflexivity.
  Qed.
  Lemma all_wait : forall p st, r_wait (all p st) = r_wait st.
  Proof.
    induction p as [|x|k IH|s q IH|e q IH|]; intro st; cbn [all]; auto.
    - now destruct (r_dead st).
    - now rewrite IH.
    - destruct (r_dead st); now rewrite IH.
  Qed.
  Lemma all_over : forall p st, r_over (all p st) = r_over st.
  Proof.
    induction p as [|x|k IH|s q IH|e q IH|]; intro st; cbn [all]; auto.
    - now destruct (r_dead st).
    - now rewrite IH.
    - destruct (r_dead st); now rewrite IH.
  Qed.
  Lemma go_over : forall p st, r_over (go o p st) = r_over st.
  Proof.
    induction p as [|x|k IH|s q IH|e q IH|]; intro st; cbn [go]; auto.
    - now destruct (r_dead st).
    - now rewrite IH.
    - destruct e; destruct (r_dead st); rewrite ?IH; reflexivity.
  Qed.

  (** [go] either runs to the end or stops inside a callback with the rest waiting. *)
  Lemma go_all : forall p st,
    go o p st = all p st \/
    exists q, r_wait (go o p st) = q :: r_wait st /\ all q (strip (go o p st)) = all p (strip st) /\ (tailp p -> q = Ret).
  Proof.
    induction p as [|x|k IH|s q IH|e q IH|]; intro st; cbn [go all tailp].
    - now left.
    - now left.
    - destruct (IH (r_s st) st) as [E|(q & E1 & E2 & E3)]; [now left|right; exists q; auto].
    - destruct (IH (RSt s (r_dead st) (r_over st) (r_wait st) (r_log st) (r_ub st))) as [E|(q' & E1 & E2 & E3)];
        [now left|right; exists q'; auto].
    - destruct e as [b|x|].
      + destruct (r_dead st) eqn:D.
        * destruct (IH st) as [E|(q' & E1 & E2 & E3)]; [now left|right; exists q'].
          cbn. rewrite D. repeat split; auto. intros ->. cbn [go] in E1.
          exfalso. clear - E1. assert (L : length (r_wait st) = Datatypes.S (length (r_wait st))) by now rewrite E1 at 1. lia.
        * right. exists q. cbn. rewrite D. auto.
      + destruct (r_dead st) eqn:D.
        * destruct (IH st) as [E|(q' & E1 & E2 & E3)]; [now left|right; exists q'; cbn; rewrite D; auto].
        * destruct (IH (RSt (r_s st) true (r_over st) (r_wait st) (r_log st ++ [Err x]) (r_ub st))) as [E|(q' & E1 & E2 & E3)];
            [now left|right; exists q'; cbn; rewrite D; auto].
      + destruct (r_dead st) eqn:D.
        * destruct (IH st) as [E|(q' & E1 & E2 & E3)]; [now left|right; exists q'; cbn; rewrite D; auto].
        * destruct (IH (RSt (r_s st) true (r_over st) (r_wait st) (r_log st ++ [Done]) (r_ub st))) as [E|(q' & E1 & E2 & E3)];
            [now left|right; exists q'; cbn; rewrite D; auto].
    - now left.
  Qed.

  Lemma go_dead : forall p st, r_dead st = true -> r_dead (go o p st) = true /\ r_log (go o p st) = r_log st.
  Proof.
    induction p as [|x|k IH|s q IH|e q IH|]; intros st D; cbn [go]; auto.
    - rewrite D. auto.
    - apply (IH (RSt s (r_dead st) (r_over st) (r_wait st) (r_log st) (r_ub st)) D).
    - rewrite D. destruct e; auto.
  Qed.

  (** Undefined behaviour. *)
  Section Ub.
    Variable inv : S -> Prop.
    Definition fine (st : st_t) : Prop := inv (r_s st) /\ r_ub st = false /\ Forall (okp inv) (r_wait st).
    Lemma go_fine : forall p st, okp inv p -> fine st -> fine (go o p st).
    Proof.
      induction p as [|x|k IH|s q IH|e q IH|]; intros st O (F1 & F2 & F3); cbn [go okp] in *.
      - repeat split; auto.
      - destruct (r_dead st); repeat split; auto.
      - apply IH; [auto|repeat split; auto].
      - destruct O as (I & O). apply IH; [auto|repeat split; auto].
      - destruct e; destruct (r_dead st); try (apply IH; [auto|repeat split; auto]); repeat split; auto; constructor; auto.
      - contradiction.
    Qed.
    Hypothesis inv0 : inv (ro_init o).
    Hypothesis okm : forall e, okp inv (method o e).
    Lemma rruns_fine : forall tr st st', rruns o st tr = Some st' -> fine st -> fine st'.
    Proof.
      induction tr as [|a tr IH]; intros st st' R F; cbn in R.
      - injection R as <-. auto.
      - destruct (rstep o st a) as [st1|] eqn:E; [|discriminate]. apply (IH _ _ R). clear R IH.
        destruct F as (F1 & F2 & F3). destruct a as [e| |]; cbn in E.
        + destruct (r_over st); [discriminate|]. injection E as <-.
          destruct (r_dead st); [|apply go_fine; auto]; repeat split; auto.
        + destruct (r_wait st) as [|p r] eqn:W; [discriminate|]. injection E as <-.
          apply go_fine; [exact (Forall_inv F3)|repeat split; auto]. exact (Forall_inv_tail F3).
        + injection E as <-. repeat split; auto.
    Qed.
    Lemma rrun_fine : forall tr st, rrun o tr = Some st -> r_ub st = false.
    Proof. intros tr st R. assert (F : fine (r_init o)) by (split; [exact inv0|split; [reflexivity|constructor]]). destruct (rruns_fine tr _ _ R F) as (_ & U & _). exact U. Qed.
  End Ub.

  Lemma rruns_app : forall tr tr' st, rruns o st (tr ++ tr') = match rruns o st tr with Some st' => rruns o st' tr' | None => None end.
  Proof.
    induction tr as [|a tr IH]; intros tr' st; cbn; auto. destruct (rstep o st a); auto.
  Qed.
  Lemma pushed_app : forall tr tr' : list (act A), pushed (tr ++ tr') = pushed tr ++ pushed tr'.
  Proof. induction tr as [|[e| |] tr IH]; intro tr'; cbn; auto. now rewrite IH. Qed.

  Hypothesis tails : forall v, tailp (ro_next o v).

  Definition exact (tr : list (act A)) (st : st_t) : Prop :=
    (r_wait st = [] /\ strip st = sseq (pushed tr)) \/
    exists q r, r_wait st = q :: r /\ Forall (fun p => p = Ret) r /\ (r_over st = false -> q = Ret) /\
                all q (strip st) = sseq (pushed tr).
  Definition stopped (tr : list (act A)) (st : st_t) : Prop :=
    In AStop tr /\ r_dead st = true /\ exists rest, r_log (sseq (pushed tr)) = r_log st ++ rest.

  Lemma exact_prefix : forall tr st, exact tr st -> exists rest, r_log (sseq (pushed tr)) = r_log st ++ rest.
  Proof.
    intros tr st [(W & E)|(q & r & W & R & O & E)]; rewrite <- E.
    - exists []. now rewrite app_nil_r.
    - destruct (all_prefix q (strip st)) as (rest & P). exists rest. exact P.
  Qed.
  Lemma sseq_snoc : forall l e, sseq (l ++ [e]) = seqstep (sseq l) e.
  Proof. intros. unfold sseq. now rewrite fold_left_app. Qed.
  Lemma sseq_grows : forall l e, exists rest, r_log (sseq (l ++ [e])) = r_log (sseq l) ++ rest.
  Proof.
    intros l e. rewrite sseq_snoc. unfold seqstep. cbn [r_dead].
    destruct (r_dead (sseq l)); [exists []; cbn; now rewrite app_nil_r|].
    destruct (all_prefix (method o e) (RSt (r_s (sseq l)) false (r_over (sseq l) || is_term e) (r_wait (sseq l)) (r_log (sseq l)) (r_ub (sseq l)))) as (r & E).
    exists r. exact E.
  Qed.

  Lemma exact_of_go : forall tr st p r,
    Forall (fun p => p = Ret) r -> r_wait st = r -> (r_over st = false -> tailp p) ->
    all p (strip st) = sseq (pushed tr) -> exact tr (go o p st).
  Proof.
    intros tr st p r R W T E. destruct (go_all p st) as [G|(q & G1 & G2 & G3)].
    - rewrite G. destruct r as [|x r].
      + left. rewrite all_wait, all_strip. auto.
      + right. exists x, r. rewrite all_wait, all_strip. repeat split; auto.
        * exact (Forall_inv_tail R).
        * intros _. exact (Forall_inv R).
        * rewrite (Forall_inv R). cbn [all]. exact E.
    - right. exists q, r. rewrite G1, W, G2, go_over. repeat split; auto.
  Qed.

  Lemma inv_run : forall tr st, rrun o tr = Some st -> (~ In AStop tr /\ exact tr st) \/ stopped tr st.
  Proof.
    induction tr as [|a tr IH] using rev_ind; intros st R.
    - injection R as <-. left. split; auto. left. split; reflexivity.
    - unfold rrun in R. rewrite rruns_app in R. fold (rrun o tr) in R.
      destruct (rrun o tr) as [st0|]; [|discriminate]. specialize (IH _ eq_refl). cbn in R.
      destruct (rstep o st0 a) as [st1|] eqn:E; [|discriminate]. injection R as <-.
      destruct IH as [(N & X)|(S & D & P)].
      + destruct a as [e| |].
        * left. split. { intro H. apply in_app_or in H. destruct H as [H|[H|[]]]; [auto|discriminate]. }
          cbn in E. destruct (r_over st0) eqn:O; [discriminate|]. injection E as <-.
          assert (XW : Forall (fun p => p = Ret) (r_wait st0) /\ strip st0 = sseq (pushed tr)).
          { destruct X as [(W & X)|(q & r & W & R & Q & X)].
            - rewrite W. auto.
            - pose proof (Q O) as QE. subst q. rewrite W. split; auto. }
          destruct XW as (XW & XE).
          assert (SE : seqstep (strip st0) e = sseq (pushed (tr ++ [APush e]))).
          { rewrite pushed_app. cbn. now rewrite sseq_snoc, XE. }
          unfold seqstep, strip in SE. cbn in SE. rewrite O in SE. cbn [orb] in SE.
          destruct (r_dead st0) eqn:D.
          -- destruct (r_wait st0) as [|x r] eqn:W.
             ++ left. split; auto.
             ++ right. exists x, r. repeat split; auto; cbn.
                ** exact (Forall_inv_tail XW).
                ** intros _. exact (Forall_inv XW).
                ** rewrite (Forall_inv XW). exact SE.
          -- eapply exact_of_go; [exact XW|reflexivity| |exact SE].
             cbn. destruct e; cbn; intro; try discriminate. apply tails.
        * left. split. { intro H. apply in_app_or in H. destruct H as [H|[H|[]]]; [auto|discriminate]. }
          assert (PE : pushed (tr ++ [AReturn]) = pushed tr) by (rewrite pushed_app; apply app_nil_r).
          cbn in E. destruct (r_wait st0) as [|p r0] eqn:W; [discriminate|]. injection E as <-.
          destruct X as [(W' & X)|(q & r & W' & R & Q & X)]; rewrite W in W'; [discriminate|]. injection W' as <- <-.
          eapply exact_of_go; [exact R|reflexivity| |].
          -- cbn. intro O. rewrite (Q O). exact I.
          -- rewrite PE. exact X.
        * right. cbn in E. injection E as <-. split; [apply in_or_app; right; now left|]. split; auto. rewrite pushed_app. cbn. rewrite app_nil_r.
          exact (exact_prefix _ _ X).
      + right. split; [apply in_or_app; now left|]. destruct a as [e| |]; cbn in E.
        * destruct (r_over st0); [discriminate|]. rewrite D in E. injection E as <-. split; auto.
          destruct P as (rest & P). rewrite pushed_app. cbn. destruct (sseq_grows (pushed tr) e) as (r2 & G).
          exists (rest ++ r2). rewrite G, P. cbn. now rewrite app_assoc.
        * destruct (r_wait st0) as [|p r]; [discriminate|]. injection E as <-.
          destruct (go_dead p (RSt (r_s st0) (r_dead st0) (r_over st0) r (r_log st0) (r_ub st0)) D) as (G1 & G2).
          split; auto. rewrite G2. cbn. rewrite pushed_app. cbn. now rewrite app_nil_r.
        * injection E as <-. split; auto. rewrite pushed_app. cbn. now rewrite app_nil_r.
  Qed.

  Lemma delivers_seq : forall (spec : list A -> list (ev B) -> list (ev B)),
    (forall l, r_log (sseq l) = spec (vals l) (term_list l)) ->
    forall tr st, rrun o tr = Some st -> delivers spec tr (r_log st) (r_wait st = []).
  Proof.
    intros spec SP tr st R. unfold delivers. rewrite <- SP.
    assert (H : (exists rest, r_log (sseq (pushed tr)) = r_log st ++ rest) /\ (~ In AStop tr -> exact tr st)).
    { destruct (inv_run tr _ R) as [(N & X)|(S & D & P)]; split; auto.
      - exact (exact_prefix _ _ X).
      - intro; contradiction. }
    destruct H as (H1 & H2). split; auto. intros N W. destruct (H2 N) as [(_ & X)|(q & r & W' & _)].
    - now rewrite <- X.
    - rewrite W in W'. discriminate.
  Qed.
End Gen.

(** An observer that records. *)
Definition recm (B : Type) : machine B :=
  Machine B (list (ev B) * bool)
    (fun d e => if snd d then d else (fst d ++ [e], is_term e)) snd (fun d => (fst d, true)).
Lemma rec_lawful : forall B, lawful (recm B).
Proof.
  intro B. constructor; cbn.
  - intros (l & d) e H. cbn in *. now rewrite H.
  - intros (l & d) e H. cbn in *. destruct d; auto.
  - auto.
  - intros (l & d) H. cbn in *. now subst.
Qed.
Lemma rec_gram : forall B (l : list (ev B)), grammatical l -> forall acc, fst (mrun (recm B) (acc, false) l) = acc ++ l.
Proof.
  intros B l (vs & t & -> & T). induction vs as [|v vs IH]; intro acc.
  - cbn [map app]. tcases T.
    + now rewrite app_nil_r.
    + reflexivity.
    + reflexivity.
  - cbn [map app]. rewrite mrun_cons. cbn [recm mstep snd fst is_term]. rewrite IH. now rewrite <- app_assoc.
Qed.

Definition sound {A B} (o : rop A B) (spec : stream_spec A B) : Prop :=
  forall tr st, rrun o tr = Some st -> r_ub st = false /\ delivers spec tr (r_log st) (r_wait st = []).

Section Link.
  Context {A B : Type} (o : rop A B) (l : libop A B) (f : ro_S o -> op_S (denote l)) (inv : ro_S o -> Prop).
  Notation M := (lift (denote l) (recm B)).
  Definition abs (st : rst o) : mst M := (f (r_s st), (r_log st, r_dead st)).
  Definition sim (st : rst o) : Prop := inv (r_s st) /\ r_ub st = false.

  Hypothesis inv0 : inv (ro_init o).
  Hypothesis okm : forall e, okp o inv (method o e).
  Hypothesis h_init : lift_init (denote l) (recm B) ([], false) = abs (r_init o).
  Hypothesis h_step : forall e st, sim st -> r_dead st = false ->
    lift_step (denote l) (recm B) (abs st) e = abs (all o (method o e) st).

  Lemma all_sim : forall p st, okp o inv p -> sim st -> sim (all o p st).
  Proof.
    induction p as [|x|k IH|s q IH|e q IH|]; intros st O (F1 & F2); cbn [all okp] in *.
    - split; auto.
    - destruct (r_dead st); split; auto.
    - apply IH; [auto|split; auto].
    - destruct O as (I & O). apply IH; [auto|split; auto].
    - destruct (r_dead st); apply IH; auto; split; auto.
    - contradiction.
  Qed.
  Lemma link_run : forall es st, sim st -> mrun M (abs st) es = abs (fold_left (seqstep o) es st).
  Proof.
    induction es as [|e es IH]; intros st H.
    - reflexivity.
    - rewrite mrun_cons. cbn [fold_left]. unfold seqstep at 2. cbn [r_dead].
      destruct (r_dead st) eqn:D.
      + rewrite <- IH by exact H. f_equal.
        assert (E : mstep M (abs st) e = abs st) by (apply (law_dead _ (lift_lawful _ _ _ (denote_ok _ _ l) _ (rec_lawful B))); exact D).
        rewrite E. unfold abs. cbn. now rewrite D.
      + rewrite <- IH.
        * f_equal. cbn [mstep lift]. rewrite <- h_step; auto. unfold abs. cbn. now rewrite D.
        * apply all_sim; auto.
  Qed.
  Lemma link : forall es, r_log (sseq o es) = op_spec l (vals es) (term_list es).
  Proof.
    intro es. assert (E : snd (mrun M (abs (r_init o)) es) = (r_log (sseq o es), r_dead (sseq o es))).
    { rewrite link_run by (split; auto). reflexivity. }
    rewrite <- h_init, (denote_refines A B l (recm B) (rec_lawful B)) in E.
    pose proof (rec_gram _ _ (op_spec_gram A B l (vals es) (term_list es) (term_list_tpart _ _ es)) []) as G.
    rewrite E in G. exact G.
  Qed.

  (** Every method that calls on_next calls it last: nesting does not matter. *)
  Lemma reentrant : (forall v, tailp o (ro_next o v)) ->
sound o (op_spec l).
  Proof.
    intros T tr st R. split.
    - eapply rrun_fine; eauto.
    - apply (delivers_seq o T); auto. exact link.
  Qed.
End Link.

(** ---- the operators whose last act is the downstream call ---- *)
(** One shape for all of them. *)
Ltac op_sound o0 l0 inv0 :=
  change (sound o0 (op_spec l0)); apply (reentrant o0 l0 (fun s => s) inv0);
  [ exact Logic.I
  | intros [v|x|]; cbn; auto
  | reflexivity
  | intros e st I D; destruct st as [s dead over wait log ub]; destruct I as (I & U);
    cbn in I, D, U; subst dead ub; destruct e as [v|x|]; unfold lift_next, lift_done; cbn; auto
  | intro v; cbn; auto ].

Lemma map_sound : forall A B (f : A -> res B), sound (map_r f) (map_spec f).
Proof. intros A B f. op_sound (map_r f) (LMap A B f) (fun _ : unit => True); destruct (f v); cbn; auto. Qed.
Lemma filter_sound : forall A (p : A -> res bool), sound (filter_r p) (filter_spec p).
Proof. intros A p. op_sound (filter_r p) (LFilter A p) (fun _ : unit => True); destruct (p v) as [[|]|]; cbn; auto. Qed.
Lemma take_while_sound : forall A (p : A -> res bool), sound (take_while_r p) (take_while_spec p).
Proof. intros A p. op_sound (take_while_r p) (LTakeWhile A p) (fun _ : unit => True); destruct (p v) as [[|]|]; cbn; auto. Qed.
Lemma skip_sound : forall A n, sound (@skip_r A n) (skip_spec n).
Proof.
  intros A n. op_sound (@skip_r A n) (LSkip A n) (fun _ : nat => True).
  - intros s _. destruct (s =? 0); cbn; auto.
  - destruct (s =? 0); cbn; auto.
  - intros s. destruct (s =? 0); cbn; auto.
Qed.
Lemma distinct_sound : forall A (eqb : A -> A -> bool), (forall x y, eqb x y = true <-> x = y) ->
  sound (distinct_r eqb) (distinct_spec eqb).
Proof.
  intros A eqb H. op_sound (distinct_r eqb) (LDistinct A eqb H) (fun _ : list A => True).
  - intros s _. destruct (existsb (eqb v) s); cbn; auto.
  - destruct (existsb (eqb v) s); cbn; auto.
  - intros s. destruct (existsb (eqb v) s); cbn; auto.
Qed.
Lemma duc_sound : forall A (c : A -> A -> res bool), sound (duc_r c) (duc_spec c).
Proof.
  intros A c. op_sound (duc_r c) (LDistinctUntilChanged A c) (fun _ : option A => True).
  - intros [l|] _; cbn; auto. destruct (c l v) as [[|]|]; cbn; auto.
  - destruct s as [l|]; cbn; auto. destruct (c l v) as [[|]|]; cbn; auto.
  - intros [l|]; cbn; auto. destruct (c l v) as [[|]|]; cbn; auto.
Qed.
Lemma scan_sound : forall A B (f : B -> A -> res B) seed, sound (scan_r f seed) (scan_spec f seed).
Proof.
  intros A B f seed. op_sound (scan_r f seed) (LScan A B f seed) (fun _ : B => True).
  - intros s _. destruct (f s v); cbn; auto.
  - destruct (f s v); cbn; auto.
  - intros s. destruct (f s v); cbn; auto.
Qed.
Lemma scan1_sound : forall A (f : A -> A -> res A), sound (scan1_r f) (scan1_spec f).
Proof.
  intros A f. op_sound (scan1_r f) (LScanNoSeed A f) (fun _ : option A => True).
  - intros [l|] _; cbn; auto. destruct (f l v); cbn; auto.
  - destruct s as [l|]; cbn; auto. destruct (f l v); cbn; auto.
  - intros [l|]; cbn; auto. destruct (f l v); cbn; auto.
Qed.
Lemma reduce_sound : forall A B (f : B -> A -> res B) seed, sound (reduce_r f seed) (reduce_spec f seed).
Proof.
  intros A B f seed. op_sound (reduce_r f seed) (LReduce A B f seed) (fun _ : B => True).
  - intros s _. destruct (f s v); cbn; auto.
  - destruct (f s v); cbn; auto.
  - intros s. destruct (f s v); cbn; auto.
Qed.
Lemma reduce1_sound : forall A (f : A -> A -> res A), sound (reduce1_r f) (reduce1_spec f).
Proof.
  intros A f. op_sound (reduce1_r f) (LReduceNoSeed A f) (fun _ : option A => True).
  - intros [l|] _; cbn; auto. destruct (f l v); cbn; auto.
  - intros [l|] _; cbn; auto.
  - destruct s as [l|]; cbn; auto. destruct (f l v); cbn; auto.
  - destruct s as [l|]; cbn; auto.
  - intros [l|]; cbn; auto. destruct (f l v); cbn; auto.
Qed.
Lemma last_sound : forall A nee, sound (@last_r A nee) (last_spec nee).
Proof.
  intros A nee. op_sound (@last_r A nee) (LLast A nee) (fun _ : option A => True).
  - intros [l|] _; cbn; auto.
  - destruct s as [l|]; cbn; auto.
Qed.

(** take_last: the index stays inside the vector. *)
Definition tl_inv {A} (s : tl_state A) : Prop := (tl_data s = [] /\ tl_end s = 0) \/ tl_end s < length (tl_data s).
Lemma tl_next_lt : forall n p, 0 < n -> tl_next n p < n.
Proof. intros n p H. unfold tl_next. destruct (Nat.leb_spec n (p + 1)); lia. Qed.
Lemma set_nth_length : forall A (l : list A) i v, length (set_nth l i v) = length l.
Proof. induction l as [|x l IH]; intros [|i] v; cbn; auto. Qed.
Lemma tl_loop_ok : forall A n cap i, okp (@take_last_r A cap) tl_inv (tl_loop n i).
Proof.
  induction n as [|n IH]; intros cap i; [exact Logic.I|]. cbn [tl_loop okp]. intros s I.
  destruct (Nat.ltb_spec i (length (tl_data s))) as [L|L]; [|exact Logic.I].
  destruct I as [(E & _)|I]; [rewrite E in L; cbn in L; lia|].
  destruct (nth_error (tl_data s) (tl_end s)) as [v|] eqn:N; [|apply nth_error_None in N; lia].
  cbn [okp]. intros s' I'. split; auto.
  destruct I' as [(E' & _)|I'].
  - left. cbn. rewrite E'. split; auto.
  - right. cbn. apply tl_next_lt. lia.
Qed.
Lemma tl_loop_all : forall A cap n i (s : tl_state A) over wait log dead,
  tl_inv s -> i + n = length (tl_data s) ->
  abs (@take_last_r A cap) (LTakeLast A cap) (fun s => s) (all (@take_last_r A cap) (tl_loop n i) (@RSt A A (take_last_r cap) s dead over wait log false)) =
  let '(pos, d) := tl_flush (recm A) (tl_data s) n (tl_end s) (log, dead) in (TL (tl_data s) pos, mstep (recm A) d Done).
Proof.
  induction n as [|n IH]; intros i s over wait log dead I L.
  - cbn. destruct dead; destruct s; reflexivity.
  - cbn [tl_loop all r_s tl_flush]. destruct (Nat.ltb_spec i (length (tl_data s))) as [_|X]; [|lia].
    destruct I as [(E & _)|I]; [rewrite E in L; cbn in L; lia|].
    destruct (nth_error (tl_data s) (tl_end s)) as [v|] eqn:N; [|apply nth_error_None in N; lia].
    cbn [all r_dead]. destruct dead; cbn [all r_s r_dead r_over r_wait r_log r_ub].
    + rewrite IH; cbn [tl_data tl_end]; [reflexivity| |lia]. right. cbn. apply tl_next_lt. lia.
    + rewrite IH; cbn [tl_data tl_end]; [reflexivity| |lia]. right. cbn. apply tl_next_lt. lia.
Qed.
Lemma take_last_sound : forall A n, sound (@take_last_r A n) (take_last_spec n).
Proof.
  intros A n. change (sound (@take_last_r A n) (op_spec (LTakeLast A n))). apply (reentrant (take_last_r n) (LTakeLast A n) (fun s => s) tl_inv); cbn -[Nat.ltb]; auto.
  - now left.
  - intros [v|x|]; cbn -[Nat.ltb]; auto.
    + intros s I. destruct (Nat.eqb_spec n 0) as [Z|Z]; cbn -[Nat.ltb]; auto.
      destruct (Nat.ltb_spec (length (tl_data s)) n) as [L|L]; cbn; (split; [|auto]).
      * right. cbn. rewrite app_length. cbn. destruct I as [(E & ->)|I]; [rewrite E; cbn|]; lia.
      * right. cbn. rewrite set_nth_length. apply tl_next_lt. lia.
    + intros s _. apply tl_loop_ok.
  - intros e st I D; destruct st as [s dead over wait log ub]; destruct I as (I & U);
    cbn in I, D, U; subst dead ub; destruct e as [v|x|]; unfold lift_next, lift_done; cbn -[Nat.ltb]; auto.
    + change (take_last_cap reserve_exact n) with n. destruct (n =? 0); cbn -[Nat.ltb]; auto. destruct (length (tl_data s) <? n); cbn; auto.
    + symmetry. exact (tl_loop_all A n (length (tl_data s)) 0 s over wait log false I eq_refl).
  - intros v s. destruct (n =? 0); cbn -[Nat.ltb]; auto. destruct (length (tl_data s) <? n); cbn; auto.
Qed.

(** ---- take: the counter is read again after the callback ---- *)
Section Take.
  Context {A : Type} (n : nat).
  Notation o := (@take_r A n).
  Definition take_last_p : prog nat A := Get (fun count => if count =? 0 then Emit Done Ret else Ret).

  Definition t_alive (tr : list (act A)) (st : rst o) : Prop :=
    r_dead st = false /\ r_over st = false /\
    exists vs, pushed tr = map Next vs /\ r_log st = map Next (firstn n vs) /\ r_s st = n - length vs /\
               (Nat.max 1 n <= length vs -> r_wait st <> []) /\ (r_wait st <> [] -> 1 <= n /\ 1 <= length vs).
  Definition t_ended (tr : list (act A)) (st : rst o) : Prop :=
    r_dead st = true /\
    ((Nat.max 1 n <= length (vals (pushed tr)) /\
      (r_log st = map Next (firstn n (vals (pushed tr))) ++ [Done] \/
       exists x, In (Err x) (pushed tr) /\ r_log st = map Next (firstn n (vals (pushed tr))) ++ [Err x])) \/
     (r_over st = true /\ length (vals (pushed tr)) < Nat.max 1 n /\
      exists e, is_term e = true /\ r_log st = map Next (vals (pushed tr)) ++ [e] /\ term_list (pushed tr) = [e])).
  Definition t_stop (tr : list (act A)) (st : rst o) : Prop :=
    In AStop tr /\ r_dead st = true /\
    exists tr0 st0, (t_alive tr0 st0 \/ t_ended tr0 st0) /\ r_log st = r_log st0 /\ exists es, pushed tr = pushed tr0 ++ es.

  Lemma vals_map : forall vs : list A, vals (map Next vs) = vs.
  Proof. induction vs; cbn; congruence. Qed.
  Lemma vals_map_app : forall (vs : list A) r, vals (map Next vs ++ r) = vs ++ vals r.
  Proof. induction vs; intro r; cbn; congruence. Qed.
  Lemma term_map_app : forall (vs : list A) r, @term_list A A (map Next vs ++ r) = term_list r.
  Proof. induction vs; intro r; cbn; auto. unfold term_list in *. cbn. apply IHvs. Qed.
  Lemma vals_app : forall a b : list (ev A), exists r, vals (a ++ b) = vals a ++ r.
  Proof.
    induction a as [|[v|x|] a IH]; intro b; cbn.
    - exists (vals b). reflexivity.
    - destruct (IH b) as (r & ->). exists r. reflexivity.
    - exists []. reflexivity.
    - exists []. reflexivity.
  Qed.

  Lemma go_last_dead : forall st, r_dead st = true -> go o take_last_p st = st.
  Proof. intros st D. cbn. destruct (r_s st =? 0); cbn; auto. now rewrite D. Qed.

  Lemma go_take_next : forall v (st : rst o), r_dead st = false -> go o (ro_next o v) st =
    if 0 <? r_s st then @RSt A A o (r_s st - 1) false (r_over st) (take_last_p :: r_wait st) (r_log st ++ [Next v]) (r_ub st)
    else @RSt A A o (r_s st) true (r_over st) (r_wait st) (r_log st ++ [Done]) (r_ub st).
  Proof.
    intros v [s d ov w l u] D. cbn in D. subst d. cbn. destruct s as [|s]; cbn; reflexivity.
  Qed.
  Lemma go_last_alive : forall (st : rst o), r_dead st = false -> go o take_last_p st =
    if r_s st =? 0 then @RSt A A o (r_s st) true (r_over st) (r_wait st) (r_log st ++ [Done]) (r_ub st) else st.
  Proof.
    intros [s d ov w l u] D. cbn in D. subst d. cbn. destruct s as [|s]; cbn; reflexivity.
  Qed.

  Lemma take_inv : forall tr st, rrun o tr = Some st ->
    r_ub st = false /\ Forall (fun p => p = take_last_p) (r_wait st) /\
    ((~ In AStop tr /\ (t_alive tr st \/ t_ended tr st)) \/ t_stop tr st).
  Proof.
    induction tr as [|a tr IH] using rev_ind; intros st R.
    - injection R as <-. split; auto. split; [constructor|]. left. split; auto. left. repeat split; auto. exists []. cbn [pushed map length].
      rewrite firstn_nil, Nat.sub_0_r. split; [reflexivity|]. split; [reflexivity|]. split; [reflexivity|].
      split; [intro; lia|]. intro H. now contradiction H.
    - unfold rrun in R. rewrite rruns_app in R. fold (rrun o tr) in R.
      destruct (rrun o tr) as [st0|]; [|discriminate]. specialize (IH _ eq_refl). cbn [rruns] in R.
      destruct (rstep o st0 a) as [st1|] eqn:E; [|discriminate]. injection R as <-.
      destruct IH as (U & W & X).
      destruct a as [e| |]; cbn [rstep] in E.
      + destruct (r_over st0) eqn:O; [discriminate|]. injection E as <-. cbn [r_dead].
        destruct X as [(N & [X|X])|X].
        * destruct X as (D & _ & vs & PE & L & SE & Q & Q2). rewrite D.
          assert (N' : ~ In AStop (tr ++ [APush e])).
          { intro H. apply in_app_or in H. destruct H as [H|[H|[]]]; [auto|discriminate]. }
          destruct e as [v|x|]; cbn [method is_term].
          -- rewrite go_take_next by reflexivity. cbn [r_s r_over r_wait r_log r_ub]. rewrite SE.
             destruct (Nat.ltb_spec 0 (n - length vs)) as [LT|GE].
             ++ cbn [r_ub r_wait]. split; auto. split; [constructor; auto|]. left. split; auto. left. split; auto. split; auto.
                exists (vs ++ [v]). rewrite pushed_app, PE, L, map_app, app_length. cbn.
                rewrite firstn_app, (firstn_all2 vs) by lia. rewrite map_app.
                replace (firstn (n - length vs) [v]) with [v] by (destruct (n - length vs) as [|k] eqn:K; [lia|cbn; now rewrite firstn_nil]).
                split; [reflexivity|]. split; [reflexivity|]. split; [cbn; lia|]. split; [discriminate|]. intros _. lia.
             ++ cbn [r_ub r_wait]. split; auto. split; auto. left. split; auto. right. split; auto. left.
                rewrite pushed_app, PE, vals_map_app. cbn [pushed vals r_log]. rewrite app_length. cbn [length]. split; [lia|]. left. rewrite L.
                rewrite firstn_app. replace (n - length vs) with 0 by lia. cbn [firstn]. now rewrite app_nil_r.
          -- cbn [take_r ro_done p_done go r_s r_dead r_over r_wait r_log r_ub]. split; auto. split; auto. left. split; auto. right. split; auto.
             rewrite pushed_app, PE, vals_map_app. cbn [pushed vals]. rewrite app_nil_r. cbn [r_log r_over].
             destruct (Nat.le_gt_cases (Nat.max 1 n) (length vs)) as [G|G].
             ++ left. split; auto. right. exists x. split; [apply in_or_app; right; now left|]. now rewrite L.
             ++ right. repeat split; auto. exists (Err x). repeat split; auto.
                ** rewrite L, firstn_all2 by lia. reflexivity.
                ** now rewrite term_map_app.
          -- cbn [take_r ro_done p_done go r_s r_dead r_over r_wait r_log r_ub]. split; auto. split; auto. left. split; auto. right. split; auto.
             rewrite pushed_app, PE, vals_map_app. cbn [pushed vals]. rewrite app_nil_r. cbn [r_log r_over].
             destruct (Nat.le_gt_cases (Nat.max 1 n) (length vs)) as [G|G].
             ++ left. split; auto. left. now rewrite L.
             ++ right. repeat split; auto. exists Done. repeat split; auto.
                ** rewrite L, firstn_all2 by lia. reflexivity.
                ** now rewrite term_map_app.
        * destruct X as (D & X). rewrite D. split; auto. split; auto. left.
          split. { intro H. apply in_app_or in H. destruct H as [H|[H|[]]]; [auto|discriminate]. }
          right. split; auto. cbn [r_log r_over]. destruct X as [(G & X)|(X & _)]; [|congruence]. left.
          rewrite pushed_app. cbn [pushed]. destruct (vals_app (pushed tr) [e]) as (r & VE). rewrite VE, app_length.
          rewrite firstn_app. replace (n - length (vals (pushed tr))) with 0 by lia. cbn [firstn]. rewrite app_nil_r.
          split; [lia|]. destruct X as [X|(x & I & X)]; [left; auto|right]. exists x. split; auto. apply in_or_app. now left.
        * destruct X as (I & D & tr0 & st0' & X & L & es & PE). rewrite D. split; auto. split; auto. right.
          split; [apply in_or_app; now left|]. split; auto. exists tr0, st0'. split; auto. split; auto.
          exists (es ++ [e]). rewrite pushed_app, PE. cbn. now rewrite app_assoc.
      + assert (PU : pushed (tr ++ [AReturn]) = pushed tr) by (rewrite pushed_app; apply app_nil_r).
        assert (NS : ~ In AStop tr -> ~ In AStop (tr ++ [@AReturn A])).
        { intros N H. apply in_app_or in H. destruct H as [H|[H|[]]]; [auto|discriminate]. }
        destruct (r_wait st0) as [|p r] eqn:WE; [discriminate|]. injection E as <-.
        rewrite (Forall_inv W). apply Forall_inv_tail in W.
        destruct X as [(N & [X|X])|X].
        * destruct X as (D & O & vs & PE & L & SE & Q & Q2). rewrite go_last_alive by exact D. cbn [r_s r_over r_wait r_log r_ub]. rewrite SE.
          destruct (Nat.eqb_spec (n - length vs) 0) as [Z|Z].
          -- cbn [r_ub r_wait]. split; auto. split; auto. left. split; auto.
             destruct (Nat.le_gt_cases 1 (length vs)) as [G|G].
             ++ right. split; auto. left. rewrite PU, PE, vals_map. split; [lia|]. left. cbn. now rewrite L.
             ++ exfalso. destruct Q2 as (Q2 & Q3); [rewrite WE; discriminate|]. lia.
          -- split; auto. split; auto. left. split; auto. left. split; auto. split; auto. exists vs. rewrite PU.
             split; [auto|]. split; [exact L|]. split; [reflexivity|]. split; [intro; lia|]. intros _. apply Q2. rewrite WE. discriminate.
        * destruct X as (D & X). rewrite go_last_dead by exact D. split; auto. split; auto. left. split; auto. right.
          split; auto. rewrite PU. exact X.
        * destruct X as (I & D & X). rewrite go_last_dead by exact D. split; auto. split; auto. right.
          split; [apply in_or_app; now left|]. split; auto. rewrite PU. exact X.
      + injection E as <-. cbn [r_ub r_wait]. split; auto. split; auto. right. split; [apply in_or_app; right; now left|]. split; auto.
        rewrite pushed_app. cbn [pushed]. rewrite app_nil_r. cbn [r_log].
        destruct X as [(N & X)|(I & D & tr0 & st0' & X)].
        * exists tr, st0. split; auto. split; auto. exists []. now rewrite app_nil_r.
        * exists tr0, st0'. auto.
  Qed.
  Lemma values_map : forall l : list A, values (map Next l) = l.
  Proof. unfold values. induction l as [|x l IH]; cbn; [auto|]. now rewrite IH. Qed.
  Lemma values_app : forall a b : list (ev A), values (a ++ b) = values a ++ values b.
  Proof. intros. unfold values. apply flat_map_app. Qed.
  Lemma firstn_grows : forall (a b : list A), exists r, firstn n (a ++ b) = firstn n a ++ r.
  Proof. intros a b. rewrite firstn_app. eexists. reflexivity. Qed.

  Lemma take_values0 : forall tr (st : rst o), t_alive tr st \/ t_ended tr st -> values (r_log st) = firstn n (vals (pushed tr)).
  Proof.
    intros tr st [(_ & _ & vs & PE & L & _)|(_ & [(_ & [L|(x & _ & L)])|(_ & G & e & T & L & _)])].
    - rewrite PE, L, vals_map. apply values_map.
    - rewrite L, values_app, values_map. apply app_nil_r.
    - rewrite L, values_app, values_map. apply app_nil_r.
    - rewrite L, values_app, values_map. destruct e; [discriminate| |]; cbn; rewrite app_nil_r, firstn_all2; auto; lia.
  Qed.
  Lemma take_values : forall tr st, rrun o tr = Some st ->
    r_ub st = false /\ (exists rest, firstn n (vals (pushed tr)) = values (r_log st) ++ rest) /\
    (~ In AStop tr -> values (r_log st) = firstn n (vals (pushed tr))).
  Proof.
    intros tr st R. destruct (take_inv tr st R) as (U & _ & [(N & X)|(I & D & tr0 & st0 & X & L & es & PE)]); split; auto.
    - rewrite (take_values0 tr st X). split; auto. exists []. now rewrite app_nil_r.
    - rewrite L, (take_values0 tr0 st0 X), PE. split; [|intro; contradiction].
      destruct (vals_app (pushed tr0) es) as (r & ->). apply firstn_grows.
  Qed.

  Lemma take_spec_grows : forall (a b : list (ev A)), exists rest, take_spec n (vals (a ++ b)) (term_list (a ++ b)) = take_spec n (vals a) (term_list a) ++ rest.
  Proof.
    induction b as [|e b IH] using rev_ind; [exists []; now rewrite !app_nil_r|].
    destruct IH as (r & IH). rewrite app_assoc. enough (H : forall l : list (ev A), exists rest, take_spec n (vals (l ++ [e])) (term_list (l ++ [e])) = take_spec n (vals l) (term_list l) ++ rest).
    { destruct (H (a ++ b)) as (r2 & ->). rewrite IH. exists (r ++ r2). now rewrite app_assoc. }
    clear a b r IH. intro l. assert (C : (exists vs, l = map Next vs) \/ (vals (l ++ [e]) = vals l /\ @term_list A A (l ++ [e]) = term_list l)).
    { induction l as [|[v|x|] l IH].
      - left. now exists [].
      - destruct IH as [(vs & ->)|(E1 & E2)]; [left; now exists (v :: vs)|right]. cbn. rewrite E1. split; auto.
      - right. split; reflexivity.
      - right. split; reflexivity. }
    destruct C as [(vs & ->)|(-> & ->)]; [|exists []; now rewrite app_nil_r].
    rewrite vals_map, vals_map_app, term_map_app. replace (@term_list A A (map Next vs)) with (@nil (ev A)).
    2:{ rewrite <- (app_nil_r (map Next vs)). now rewrite term_map_app. }
    unfold take_spec. rewrite app_length.
    destruct (Nat.ltb_spec (length vs) (Nat.max 1 n)) as [G|G].
    - destruct (Nat.ltb_spec (length vs + length (vals [e])) (Nat.max 1 n)) as [G2|G2].
      + rewrite map_app, app_nil_r, <- app_assoc. eexists. reflexivity.
      + rewrite firstn_app, map_app, app_nil_r, (firstn_all2 vs) by lia. rewrite <- app_assoc. eexists. reflexivity.
    - destruct (Nat.ltb_spec (length vs + length (vals [e])) (Nat.max 1 n)) as [G2|G2]; [lia|].
      rewrite firstn_app. replace (n - length vs) with 0 by lia. cbn [firstn]. rewrite app_nil_r. exists []. now rewrite app_nil_r.
  Qed.
  Lemma take_exact0 : forall tr (st : rst o), (forall x, ~ In (Err x) (pushed tr)) -> t_alive tr st \/ t_ended tr st ->
    (exists rest, take_spec n (vals (pushed tr)) (term_list (pushed tr)) = r_log st ++ rest) /\
    (r_wait st = [] -> r_log st = take_spec n (vals (pushed tr)) (term_list (pushed tr))).
  Proof.
    intros tr st NE [(_ & _ & vs & PE & L & _ & Q & _)|(_ & [(G & [L|(x & I & _)])|(_ & G & e & T & L & TE)])].
    - rewrite PE, L, vals_map. replace (@term_list A A (map Next vs)) with (@nil (ev A)).
      2:{ rewrite <- (app_nil_r (map Next vs)). now rewrite term_map_app. }
      unfold take_spec. destruct (Nat.ltb_spec (length vs) (Nat.max 1 n)) as [G|G].
      + rewrite firstn_all2 by lia. rewrite app_nil_r. split; auto. exists []. now rewrite app_nil_r.
      + split; [now exists [Done]|]. intro W. now apply Q in G.
    - unfold take_spec. destruct (Nat.ltb_spec (length (vals (pushed tr))) (Nat.max 1 n)) as [G2|_]; [lia|].
      rewrite L. split; auto. exists []. now rewrite app_nil_r.
    - exfalso. eapply NE; eauto.
    - unfold take_spec. rewrite TE. destruct (Nat.ltb_spec (length (vals (pushed tr))) (Nat.max 1 n)) as [_|G2]; [|lia].
      rewrite L. split; auto. exists []. now rewrite app_nil_r.
  Qed.
  Lemma take_exact : forall tr st, rrun o tr = Some st -> (forall x, ~ In (Err x) (pushed tr)) ->
    delivers (take_spec n) tr (r_log st) (r_wait st = []).
  Proof.
    intros tr st R NE. destruct (take_inv tr st R) as (U & _ & [(N & X)|(I & D & tr0 & st0 & X & L & es & PE)]).
    - destruct (take_exact0 tr st NE X). split; auto.
    - split; [|intro; contradiction].
      assert (NE0 : forall x, ~ In (Err x) (pushed tr0)).
      { intros x H. apply (NE x). rewrite PE. apply in_or_app. now left. }
      destruct (take_exact0 tr0 st0 NE0 X) as ((r & E) & _).
      rewrite PE, L. destruct (take_spec_grows (pushed tr0) es) as (r2 & ->). rewrite E. exists (r ++ r2). now rewrite app_assoc.
  Qed.
End Take.

(** ---- every operator ---- *)
Section Any.
  Context {A B : Type} (o : rop A B).
  Definition shape (st : rst o) : Prop :=
    grammatical (r_log st) /\ (r_dead st = false -> exists vs, r_log st = map Next vs).
  Lemma go_shape : forall p st, shape st -> shape (go o p st).
  Proof.
    induction p as [|x|k IH|s q IH|e q IH|]; intros st (G & L); cbn [go].
    - split; auto.
    - destruct (r_dead st) eqn:D; [split; auto; congruence|]. split; cbn; [|discriminate].
      destruct (L eq_refl) as (vs & ->). exists vs, [Err x]. split; auto. right; right; eauto.
    - apply IH. split; auto.
    - apply IH. split; auto.
    - destruct e as [b|x|]; destruct (r_dead st) eqn:D; try (apply IH; split; auto; congruence).
      + destruct (L eq_refl) as (vs & E). assert (E2 : r_log st ++ [Next b] = map Next (vs ++ [b])) by (rewrite E, map_app; auto).
        split; cbn; [|eauto]. rewrite E2. exists (vs ++ [b]), []. rewrite app_nil_r. auto.
      + apply IH. split; cbn; [|discriminate]. destruct (L eq_refl) as (vs & ->). exists vs, [Err x]. split; auto. right; right; eauto.
      + apply IH. split; cbn; [|discriminate]. destruct (L eq_refl) as (vs & ->). exists vs, [Done]. split; auto.
    - split; auto.
  Qed.
  Lemma rruns_shape : forall tr st st', rruns o st tr = Some st' -> shape st -> shape st'.
  Proof.
    induction tr as [|a tr IH]; intros st st' R H; cbn in R.
    - injection R as <-. auto.
    - destruct (rstep o st a) as [st1|] eqn:E; [|discriminate]. apply (IH _ _ R). clear IH R.
      destruct H as (G & L). destruct a as [e| |]; cbn in E.
      + destruct (r_over st); [discriminate|]. injection E as <-. cbn [r_dead].
        destruct (r_dead st) eqn:D; [|apply go_shape]; split; cbn; auto; congruence.
      + destruct (r_wait st); [discriminate|]. injection E as <-. apply go_shape. split; auto.
      + injection E as <-. split; auto. discriminate.
  Qed.
  Lemma rruns_dead : forall tr st st', rruns o st tr = Some st' -> r_dead st = true -> r_log st' = r_log st.
  Proof.
    induction tr as [|a tr IH]; intros st st' R D; cbn in R.
    - now injection R as <-.
    - destruct (rstep o st a) as [st1|] eqn:E; [|discriminate].
      enough (r_dead st1 = true /\ r_log st1 = r_log st) as (D1 & <-) by (apply (IH _ _ R); auto).
      clear IH R. destruct a as [e| |]; cbn in E.
      + destruct (r_over st); [discriminate|]. rewrite D in E. injection E as <-. auto.
      + destruct (r_wait st) as [|p r]; [discriminate|]. injection E as <-. exact (go_dead o p (RSt _ _ _ r _ _) D).
      + injection E as <-. auto.
  Qed.
End Any.
