(** C74: type-erased observers and their copies.  C75: subscriptions with a disposable. *)
From Verif Require Import Base ObserverSpec ObserverModel HandleSpec HandleModel HandleProofs.

(** The innermost observer, the one with the callbacks, has disposables of its own or was made
    with one; dynamic observers are made from an observer. *)
Definition solid (base : list layer) : Prop := exists b l, base = b ++ [l] /\ l <> LNone.

(** C74. Copies of a dynamic observer, and copies of copies converted again, are the observer
    itself: whatever is called through whichever of them, the callbacks fired and the disposables
    released are those of the one observer on which all these calls are made. *)
Definition erased {V} (k : key) (c : hcall V) : list (call V) :=
  match c with
  | HEv _ e => [CEv e]
  | HUp _ u => [CUpstream u]
  | HDisp c => if keqb k (KExt c) then [CDispose] else []
  end.
Definition direct {V} (k : key) (cb : hreact V) (h : list (ev V)) (v : V) : reaction :=
  match existsb (fun c => keqb k (KExt c)) (fst (cb h v)), snd (cb h v) with
  | false, None => RCont
  | false, Some e => RThrow e
  | true, None => RDispose
  | true, Some e => RDisposeThrow e
  end.
Section Copies.
  Context {V : Type}.
  Variable cb : hreact V.
  Variable hs : nat -> list layer.
  Variable l : layer.
  Variable k : key.
  Variable ox : exn.
  Hypothesis LK : lkey l = Some k.
  Hypothesis HS0 : forall i x, In x (hs i) -> x = LNone.
  Definition sim (s : hst V) (o : ostate V) : Prop :=
    kdis s k = o_flag o /\ h_kids s = map (fun u => (k, u)) (o_up o) /\ h_rel s = o_rel o /\ h_log s = o_log o.
  Lemma kdisp_sim : forall s o, sim s o -> sim (kdispose s k) (o_dispose o).
  Proof.
    intros s o (A & B & C & D). unfold kdispose, o_dispose. rewrite A. destruct (o_flag o) eqn:F; [repeat split; auto; now rewrite A, F|].
    split; [unfold kdis; cbn; now rewrite keqb_refl|]. cbn. repeat split; auto. rewrite B, C. f_equal. clear. induction (o_up o) as [|u r IH]; auto. cbn. rewrite keqb_refl. cbn. now rewrite IH.
  Qed.
  Lemma other_sim : forall s o k', sim s o -> keqb k k' = false -> sim (kdispose s k') o.
  Proof.
    intros s o k' (A & B & C & D) E. unfold kdispose. destruct (kdis s k'); [repeat split; auto|]. repeat split; auto; cbn.
    - unfold kdis in *. cbn. now rewrite E, A.
    - assert (N : filter (fun x => keqb k' (fst x)) (h_kids s) = []).
      { rewrite B. clear - E. induction (o_up o) as [|u r IH]; auto. cbn. destruct (keqb k' k) eqn:F; auto. apply keqb_eq in F. subst. now rewrite keqb_refl in E. }
      rewrite N. cbn. now rewrite app_nil_r.
  Qed.
  Lemma full_dis : forall (s : hst V) i, dis s (full hs [l] i) = kdis s k.
  Proof.
    intros s i. unfold full. rewrite dis_app. assert (N : dis s (hs i) = false).
    { destruct (dis s (hs i)) eqn:E; auto. apply dis_true in E. destruct E as (x & I & E). rewrite (HS0 _ _ I) in E. discriminate. }
    rewrite N. cbn. rewrite orb_false_r, ldis_key, LK. reflexivity.
  Qed.
  Lemma full_keys : forall i, keys (full hs [l] i) = [k].
  Proof.
    intro i. unfold full. rewrite keys_app. assert (N : keys (hs i) = []).
    { specialize (HS0 i). induction (hs i) as [|x r IH]; auto. cbn. rewrite (HS0 x) by now left. cbn. apply IH. intros. apply HS0. now right. }
    rewrite N. cbn. now rewrite LK.
  Qed.
  Lemma ldisp_none : forall st (s : hst V), (forall x, In x st -> x = LNone) -> ldisposes s st = s.
  Proof. induction st as [|x r IH]; intros s H; auto. cbn. rewrite (H x) by now left. cbn. apply IH. intros. apply H. now right. Qed.
  Lemma end_sim : forall s o st e, sim s o -> dis s st = kdis s k -> ldisposes (fire s e) st = kdispose (fire s e) k ->
    sim (on_end s st e) (if o_flag o then o else o_dispose (OState (o_flag o) (o_up o) (o_rel o) (o_log o ++ [e]))).
  Proof.
    intros s o st e S D L. pose proof S as (A & B & C & E). destruct (o_flag o) eqn:F.
    - rewrite on_end_dis by congruence. exact S.
    - rewrite on_end_eq by congruence. rewrite L. apply kdisp_sim. repeat split; cbn; auto; try congruence.
  Qed.
  Lemma copies_sim : forall cs, sim (h_run cb hs [l] h_init cs) (o_run (direct k cb) None ox o_init (flat_map (erased k) cs)).
  Proof.
    intro cs. induction cs as [|c cs IH] using rev_ind; [repeat split; reflexivity|].
    unfold h_run, o_run in *. rewrite fold_left_app, flat_map_app, fold_left_app. cbn [fold_left flat_map]. rewrite app_nil_r.
    set (s := fold_left _ cs _) in *. set (o := fold_left _ (flat_map _ cs) _) in *. clearbody s o.
    assert (EF : forall i e, ldisposes (fire s e) (full hs [l] i) = kdispose (fire s e) k).
    { intros i e. unfold ldisposes, full. rewrite fold_right_app. fold (ldisposes (fold_right (fun l0 s0 => ldispose s0 l0) (fire s e) [l]) (hs i)).
      rewrite ldisp_none by (intros; eapply HS0; eauto). cbn. unfold ldispose. now rewrite LK. }
    destruct c as [i e|i u|c]; cbn [h_call erased].
    - cbn [fold_left o_call o_event]. destruct e as [v|x|].
      + assert (FA : full hs [l] i = hs i ++ [l]) by reflexivity. rewrite FA, on_next_eq, <- FA, full_dis. cbn [fst o_event]. unfold o_on_next. pose proof IH as (A & B & C & D).
        rewrite A. destruct (o_flag o) eqn:F; [exact IH|]. unfold bottom, direct. rewrite D. destruct (cb (o_log o) v) as [ds x]. cbn [fst snd].
        fold (disposes (fire s (Next v)) ds).
        set (b := existsb (fun c => keqb k (KExt c)) ds). set (o1 := OState false (o_up o) (o_rel o) (o_log o ++ [Next v])).
        assert (S1 : sim (disposes (fire s (Next v)) ds) (if b then o_dispose o1 else o1)).
        { assert (S0 : sim (fire s (Next v)) o1) by (repeat split; cbn; auto; rewrite D; reflexivity). clear - S0. unfold b. clearbody o1. set (t := fire s (Next v)) in *. clearbody t. clear b. revert t o1 S0.
          induction ds as [|c ds IHd]; intros t o1 S0; auto. cbn. fold (disposes (kdispose t (KExt c)) ds). destruct (keqb k (KExt c)) eqn:E; cbn.
          - pose proof (keqb_eq _ _ E) as <-. pose proof (IHd _ _ (kdisp_sim _ _ S0)) as H.
            assert (R : o_dispose (o_dispose o1) = o_dispose o1) by (unfold o_dispose at 2 3; destruct (o_flag o1) eqn:F; unfold o_dispose; [now rewrite F | reflexivity]).
            rewrite R in H. now destruct (existsb _ ds).
          - apply IHd. now apply other_sim. }
        assert (DB : dis (disposes (fire s (Next v)) ds) [l] = kdis (disposes (fire s (Next v)) ds) k) by (cbn; now rewrite orb_false_r, ldis_key, LK).
        assert (LB : forall t : hst V, ldisposes t [l] = kdispose t k) by (intro t; cbn; unfold ldispose; now rewrite LK).
        destruct b; destruct x as [e|]; auto.
        * exact (end_sim _ _ [l] (Err e) S1 DB (LB _)).
        * exact (end_sim _ _ [l] (Err e) S1 DB (LB _)).
      + apply (end_sim _ _ _ (Err x) IH); auto. apply full_dis.
      + apply (end_sim _ _ _ Done IH); auto. apply full_dis.
    - cbn [fold_left o_call]. rewrite upstream_eq, full_dis, full_keys. unfold o_set_upstream, o_full. destruct IH as (A & B & C & D). rewrite A. destruct (o_flag o) eqn:F; repeat split; cbn; auto; try congruence.
      now rewrite B, map_app.
    - destruct (keqb k (KExt c)) eqn:E; cbn [fold_left o_call].
      + pose proof (keqb_eq _ _ E) as <-. now apply kdisp_sim.
      + now apply other_sim.
  Qed.
End Copies.

Theorem C74_copies : forall (V : Type) (cb : hreact V) hs l k ox cs, lkey l = Some k -> (forall i x, In x (hs i) -> x = LNone) ->
  let o := o_run (direct k cb) None ox o_init (flat_map (erased k) cs) in
  h_log (h_run cb hs [l] h_init cs) = o_log o /\ h_rel (h_run cb hs [l] h_init cs) = o_rel o /\
  forall i, dis (h_run cb hs [l] h_init cs) (full hs [l] i) = o_flag o.
Proof.
  intros V cb hs l k ox cs LK H o. pose proof (copies_sim cb hs l k ox LK H cs) as (A & _ & B & C). repeat split; auto. intro i. now rewrite (full_dis hs l k LK H).
Qed.
Print Assumptions C74_copies.

(** Dynamic observers anywhere between the other layers make no difference. *)
Definition plain (st : list layer) : list layer := filter (fun l => match l with LNone => false | _ => true end) st.
Lemma plain_app : forall a b, plain (a ++ b) = plain a ++ plain b.
Proof. intros. apply filter_app. Qed.
Lemma plain_dis : forall V (s : hst V) st, dis s (plain st) = dis s st.
Proof. unfold plain. induction st as [|[c|c|] r IH]; auto; cbn; now rewrite IH. Qed.
Lemma plain_keys : forall st, keys (plain st) = keys st.
Proof. unfold plain, keys. induction st as [|[c|c|] r IH]; auto; cbn; now rewrite IH. Qed.
Lemma plain_disp : forall V (s : hst V) st, ldisposes s (plain st) = ldisposes s st.
Proof. unfold plain, ldisposes. induction st as [|[c|c|] r IH]; auto; cbn; now rewrite IH. Qed.
Theorem C74_transparent : forall (V : Type) (cb : hreact V) hs base cs, solid base ->
  h_run cb hs base h_init cs = h_run cb (fun i => plain (hs i)) (plain base) h_init cs.
Proof.
  intros V cb hs base cs (b & l & -> & L). unfold h_run. generalize (@h_init V). induction cs as [|c cs IH]; intro s; auto. cbn [fold_left].
  assert (E : h_call cb hs (b ++ [l]) s c = h_call cb (fun i => plain (hs i)) (plain (b ++ [l])) s c); [|rewrite E; apply IH].
  assert (P : forall i, full (fun i => plain (hs i)) (plain (b ++ [l])) i = plain (full hs (b ++ [l]) i)) by (intro; unfold full; now rewrite !plain_app).
  assert (EN : forall i e, on_end s (full hs (b ++ [l]) i) e = on_end s (plain (full hs (b ++ [l]) i)) e).
  { intros i e. destruct (dis s (full hs (b ++ [l]) i)) eqn:D; [now rewrite !on_end_dis by (rewrite ?plain_dis; auto)|].
    rewrite !on_end_eq by (rewrite ?plain_dis; auto). now rewrite plain_disp. }
  destruct c as [i [v|x|]|i u|c]; cbn [h_call]; rewrite ?P; auto.
  - assert (A : full hs (b ++ [l]) i = (hs i ++ b) ++ [l]) by (unfold full; now rewrite app_assoc).
    assert (B : plain (full hs (b ++ [l]) i) = plain (hs i ++ b) ++ [l]) by (rewrite A, plain_app; f_equal; destruct l; auto; congruence).
    rewrite B, A, !on_next_eq. rewrite <- B, <- A, plain_dis. reflexivity.
  - rewrite !upstream_eq, plain_dis, plain_keys. reflexivity.
Qed.
Print Assumptions C74_transparent.

(** Whatever handles there are and whatever is called through them: the callbacks follow the grammar. *)
Theorem C74_grammar : forall (V : Type) (cb : hreact V) hs base cs, solid base -> grammatical (h_log (h_run cb hs base h_init cs)).
Proof. intros V cb hs base cs (b & l & -> & L). apply (G_run cb hs b l L cs). Qed.
Print Assumptions C74_grammar.

(** Two copies; the second completes; a third handle adds a disposable of its own. *)
Definition x_cb (h : list (ev nat)) (v : nat) : list nat * option exn := if v =? 7 then ([], Some 1) else ([], None).
Definition x_hs (i : nat) : list layer := match i with 0 => [LNone] | 1 => [LNone; LNone] | _ => [LExt (Some i); LNone] end.
Definition x_cs : list (hcall nat) := [HUp 0 50; HEv 0 (Next 1); HUp 2 51; HEv 1 (Next 2); HEv 2 (Next 3); HEv 1 Done; HEv 0 (Next 4); HUp 0 52].
Example C74_case : h_log (h_run x_cb x_hs [LOwn 0] h_init x_cs) = [Next 1; Next 2; Next 3; Done] /\ h_rel (h_run x_cb x_hs [LOwn 0] h_init x_cs) = [50; 51; 52].
Proof. vm_compute. auto. Qed.

(** C75. Through a handle one of whose disposables has been disposed nothing is delivered, and what
    is handed over is released at once. *)
Theorem C75_silent : forall (V : Type) (cb : hreact V) hs base s i, solid base -> dis s (full hs base i) = true ->
  (forall e, h_log (h_call cb hs base s (HEv i e)) = h_log s) /\ (forall u, In u (h_rel (h_call cb hs base s (HUp i u)))).
Proof.
  intros V cb hs base s i (b & l & -> & L) D. split.
  - intros [v|x|]; cbn [h_call]; rewrite ?on_end_dis; auto. rewrite (full_app hs b l), on_next_eq, <- (full_app hs b l), D. reflexivity.
  - intro u. cbn [h_call]. rewrite upstream_eq, D. cbn. apply in_or_app. right. now left.
Qed.
Print Assumptions C75_silent.
Theorem C75_disposed : forall (V : Type) (cb : hreact V) hs base a b c i e, solid base -> In (HDisp c) a -> In (LExt (Some c)) (full hs base i) ->
  h_log (h_run cb hs base h_init ((a ++ b) ++ [HEv i e])) = h_log (h_run cb hs base h_init (a ++ b)).
Proof.
  intros V cb hs base a b c i e S I K. rewrite run_app. cbn. apply C75_silent; auto. destruct S as (b0 & l & -> & L).
  apply (dis_key _ _ (KExt c)); [apply in_keys; exists (LExt (Some c)); auto|]. rewrite run_app. apply run_mono.
  apply in_split in I. destruct I as (a1 & a2 & ->). rewrite run_app. cbn. apply run_mono. apply kdispose_same.
Qed.
Print Assumptions C75_disposed.

(** Through any other everything is delivered: the value, followed by the exception if the callback
    throws - unless the innermost disposable has been disposed in the callback. *)
Theorem C75_delivered : forall (V : Type) (cb : hreact V) hs b l s i, l <> LNone -> dis s (full hs (b ++ [l]) i) = false ->
  (forall e, is_term e = true -> h_log (h_call cb hs (b ++ [l]) s (HEv i e)) = h_log s ++ [e]) /\
  (forall v, h_log (h_call cb hs (b ++ [l]) s (HEv i (Next v))) = h_log s ++ Next v ::
     match snd (cb (h_log s) v) with
     | Some x => if existsb (fun c => match l with LExt (Some d) => d =? c | _ => false end) (fst (cb (h_log s) v)) then [] else [Err x]
     | None => []
     end).
Proof.
  intros V cb hs b l s i L D. split.
  - intros [v|x|] T; try discriminate; cbn [h_call]; now rewrite end_log.
  - intro v. cbn [h_call]. rewrite (full_app hs b l), on_next_eq, <- (full_app hs b l), D. cbn [fst]. unfold bottom. destruct (cb (h_log s) v) as [ds x]. cbn [fst snd].
    fold (disposes (fire s (Next v)) ds). destruct x as [x|]; [|now rewrite disposes_log].
    set (s0 := disposes (fire s (Next v)) ds). assert (DL : h_log s0 = h_log s ++ [Next v]) by (unfold s0; now rewrite disposes_log).
    assert (DD : dis s0 [l] = existsb (fun c => match l with LExt (Some d) => d =? c | _ => false end) ds).
    { pose proof (dis_full_l0 hs b l s i D) as N. cbn. rewrite orb_false_r, ldis_key. rewrite ldis_key in N. unfold s0. destruct l as [[d|]|d|]; cbn [lkey] in *; try congruence.
      - rewrite disposes_dis. change (kdis (fire s (Next v)) (KExt d)) with (kdis s (KExt d)). rewrite N, orb_false_r. reflexivity.
      - rewrite disposes_dis. change (kdis (fire s (Next v)) (KOwn d)) with (kdis s (KOwn d)). rewrite N, orb_false_r. clear. induction ds; auto. }
    destruct (existsb _ ds); [now rewrite on_end_dis, DL | now rewrite end_log, DL, <- app_assoc].
Qed.
Print Assumptions C75_delivered.

(** After on_error or on_completed through a handle all its disposables are disposed ... *)
Theorem C75_over : forall (V : Type) (cb : hreact V) hs base s i e c, is_term e = true -> dis s (full hs base i) = false ->
  In (LExt (Some c)) (full hs base i) -> kdis (h_call cb hs base s (HEv i e)) (KExt c) = true.
Proof.
  intros V cb hs base s i e c T D I. assert (H : kdis (on_end s (full hs base i) e) (KExt c) = true).
  { rewrite on_end_eq by auto. apply ldisposes_keys. apply in_keys. exists (LExt (Some c)). auto. }
  destruct e; [discriminate | exact H | exact H].
Qed.
Print Assumptions C75_over.
(** ... once the callbacks have got one of them, everything handed over through any handle has been
    released; nothing is released while the handle it came through is alive. *)
Theorem C75_released : forall (V : Type) (cb : hreact V) hs base cs i u, solid base -> In (HUp i u) cs ->
  has_terminal (h_log (h_run cb hs base h_init cs)) -> In u (h_rel (h_run cb hs base h_init cs)).
Proof.
  intros V cb hs base cs i u (b & l & -> & L) I T. pose proof (J_run cb hs b l cs) as [A B _ _ _].
  assert (H : In (i, u) (handed cs)) by (clear - I; induction cs as [|c cs IH]; [destruct I|]; destruct I as [->|I]; [now left | destruct c; cbn; auto]).
  pose proof (proj2 (G_run cb hs b l L cs) T) as D.
  destruct (A _ _ H) as [R|R]; auto. rewrite ldis_key in D. destruct (lkey l) as [k|] eqn:K.
  - eapply B; eauto. apply R. apply in_keys. exists l. split; auto. unfold full. apply in_or_app. right. apply in_or_app. right. now left.
  - destruct l as [[c|]|c|]; try discriminate. exfalso.
    (* an observer made with an empty wrapper: it never gets anything *)
    assert (E : forall cs, h_log (h_run cb hs (b ++ [LExt None]) h_init cs) = []).
    { clear. intro cs. induction cs as [|c cs IH] using rev_ind; auto. rewrite run_app. cbn [h_run fold_left]. 
      assert (DD : forall s : hst V, forall i, dis s (full hs (b ++ [LExt None]) i) = true) by (intros; apply dis_true; exists (LExt None); split; auto; unfold full; apply in_or_app; right; apply in_or_app; right; now left).
      destruct c as [i e|i u|c].
      - assert (SO : solid (b ++ [LExt None])) by (exists b, (LExt None); split; [auto | discriminate]). rewrite (proj1 (C75_silent V cb hs _ _ i SO (DD _ i))). exact IH.
      - cbn [h_call]. rewrite upstream_eq, DD. exact IH.
      - cbn [h_call]. now rewrite kdispose_log. }
    rewrite E in T. destruct T as [[]|(e & [])].
Qed.
Print Assumptions C75_released.
(** Disposing the disposable of a handle releases what was and what will be handed over through it. *)
Theorem C75_dispose_releases : forall (V : Type) (cb : hreact V) hs base cs i u c, solid base -> In (HUp i u) cs ->
  In (LExt (Some c)) (full hs base i) -> kdis (h_run cb hs base h_init cs) (KExt c) = true -> In u (h_rel (h_run cb hs base h_init cs)).
Proof.
  intros V cb hs base cs i u c (b & l & -> & L) I K D. pose proof (J_run cb hs b l cs) as [A B _ _ _].
  assert (H : In (i, u) (handed cs)) by (clear - I; induction cs as [|x cs IH]; [destruct I|]; destruct I as [->|I]; [now left | destruct x; cbn; auto]).
  destruct (A _ _ H) as [R|R]; auto. eapply B; eauto. apply R. apply in_keys. exists (LExt (Some c)). auto.
Qed.
Print Assumptions C75_dispose_releases.
Theorem C75_not_early : forall (V : Type) (cb : hreact V) hs base cs u, solid base -> In u (h_rel (h_run cb hs base h_init cs)) ->
  exists i, In (HUp i u) cs /\ dis (h_run cb hs base h_init cs) (full hs base i) = true.
Proof.
  intros V cb hs base cs u (b & l & -> & L) R. destruct (j_why _ _ _ _ _ _ (J_run cb hs b l cs) u R) as (i & H & D). exists i. split; auto.
  clear - H. induction cs as [|c cs IH]; [destruct H|]. destruct c; cbn in H; [right; auto | destruct H as [H|H]; [left; congruence | right; auto] | right; auto].
Qed.
Print Assumptions C75_not_early.
(** A disposable given to subscribe is disposed for a reason. *)
Theorem C75_why : forall (V : Type) (cb : hreact V) hs base cs c, solid base -> kdis (h_run cb hs base h_init cs) (KExt c) = true ->
  asked_for cb cs (h_log (h_run cb hs base h_init cs)) c \/ has_terminal (h_log (h_run cb hs base h_init cs)).
Proof. intros V cb hs base cs c (b & l & -> & L). apply (j_dis _ _ _ _ _ _ (J_run cb hs b l cs)). Qed.
Print Assumptions C75_why.
(** Callbacks subscribed with a disposable: once one of them got the end the disposable is disposed, and
    once it is disposed - in a callback that goes on to throw included - none of them is called. *)
Theorem C75_callbacks : forall (V : Type) (cb : hreact V) hs c cs cs', (forall i x, In x (hs i) -> x = LNone) ->
  (has_terminal (h_log (h_run cb hs [LExt (Some c)] h_init cs)) -> kdis (h_run cb hs [LExt (Some c)] h_init cs) (KExt c) = true) /\
  (asked_for cb cs (h_log (h_run cb hs [LExt (Some c)] h_init cs)) c -> h_log (h_run cb hs [LExt (Some c)] h_init (cs ++ cs')) = h_log (h_run cb hs [LExt (Some c)] h_init cs)) /\
  (forall h v r, h_log (h_run cb hs [LExt (Some c)] h_init cs) = h ++ Next v :: r -> In c (fst (cb h v)) -> r = []).
Proof.
  intros V cb hs c cs cs' H.
  assert (G : G (LExt (Some c)) (h_run cb hs [LExt (Some c)] h_init cs)) by (apply (G_run cb hs []); discriminate).
  assert (SIL : forall s cs', kdis s (KExt c) = true -> h_log (h_run cb hs [LExt (Some c)] s cs') = h_log s).
  { intros s cs0. revert s. induction cs0 as [|x r IH]; intros s D; auto. cbn [h_run fold_left]. fold (h_run cb hs [LExt (Some c)] (h_call cb hs [LExt (Some c)] s x) r). rewrite IH.
    - assert (DF : forall i, dis s (full hs [LExt (Some c)] i) = true) by (intro; apply dis_true; exists (LExt (Some c)); split; [unfold full; apply in_or_app; right; now left | exact D]).
      destruct x as [i e|i u|d]; [apply C75_silent; auto; exists [], (LExt (Some c)); split; auto; discriminate | cbn [h_call]; rewrite upstream_eq, DF; auto | cbn [h_call]; apply kdispose_log].
    - change [LExt (Some c)] with ([] ++ [LExt (Some c)]). now apply call_mono. }
  assert (INS : forall cs h v r, h_log (h_run cb hs [LExt (Some c)] h_init cs) = h ++ Next v :: r -> In c (fst (cb h v)) -> r = [] /\ kdis (h_run cb hs [LExt (Some c)] h_init cs) (KExt c) = true).
  { clear - SIL H. intro cs. induction cs as [|x cs IH] using rev_ind; intros h v r E I; [destruct h; discriminate|].
    rewrite run_app in E |- *. set (s := h_run cb hs [LExt (Some c)] h_init cs) in *. cbn [h_run fold_left] in E |- *.
    assert (K : forall r0, h_log s = h ++ Next v :: r0 -> r = [] /\ kdis (h_call cb hs [LExt (Some c)] s x) (KExt c) = true).
    { intros r0 E0. destruct (IH _ _ _ E0 I) as (-> & D). split; [|change [LExt (Some c)] with ([] ++ [LExt (Some c)]); now apply call_mono].
      pose proof (SIL s [x] D) as Q. cbn in Q. rewrite Q, E0 in E. apply app_inv_head in E. now injection E. }
    assert (DF : forall i, dis s (full hs [LExt (Some c)] i) = kdis s (KExt c)) by (intro; apply full_dis; auto).
    destruct (kdis s (KExt c)) eqn:D; [pose proof (SIL s [x] D) as Q; cbn in Q; rewrite Q in E; eapply K; eauto|].
    destruct x as [i e|i u|d].
    - destruct e as [w|y|].
      + cbn [h_call] in *. change (full hs [LExt (Some c)] i) with (hs i ++ [LExt (Some c)]) in *. rewrite on_next_eq in *. change (hs i ++ [LExt (Some c)]) with (full hs [LExt (Some c)] i) in *. rewrite DF in *.
        cbn [fst] in *. unfold bottom in *. destruct (cb (h_log s) w) as [ds y] eqn:C. fold (disposes (fire s (Next w)) ds) in *. set (s0 := disposes (fire s (Next w)) ds) in *.
        assert (L0 : h_log s0 = h_log s ++ [Next w]) by (unfold s0; now rewrite disposes_log).
        assert (CASE : h_log s ++ [Next w] = h ++ Next v :: r -> r = [] /\ kdis s0 (KExt c) = true).
        { intro Q. destruct r as [|z r] using rev_ind.
          - apply app_inj_tail in Q. destruct Q as (<- & Q). injection Q as ->. split; auto. unfold s0. rewrite disposes_dis. rewrite C in I. cbn in I. apply orb_true_iff. left.
            apply existsb_exists. exists c. split; auto. apply keqb_refl.
          - clear IHr. replace (h ++ Next v :: r ++ [z]) with ((h ++ Next v :: r) ++ [z]) in Q by (rewrite <- app_assoc; reflexivity). apply app_inj_tail in Q. destruct Q as (Q & _). exfalso.
            destruct (K _ Q) as (X & _). destruct r; discriminate. }
        destruct y as [y|]; [|rewrite L0 in E; auto].
        destruct (dis s0 [LExt (Some c)]) eqn:D0; [rewrite on_end_dis in E |- * by auto; rewrite L0 in E; auto|].
        rewrite end_log, L0 in E by auto. destruct r as [|z r] using rev_ind; [apply app_inj_tail in E; destruct E as (_ & E); discriminate|]. clear IHr.
        replace (h ++ Next v :: r ++ [z]) with ((h ++ Next v :: r) ++ [z]) in E by (rewrite <- app_assoc; reflexivity). apply app_inj_tail in E. destruct E as (E & _).
        exfalso. assert (r = [] /\ kdis s0 (KExt c) = true).
        { destruct r as [|z' r] using rev_ind.
          - apply app_inj_tail in E. destruct E as (<- & E). injection E as ->. split; auto. unfold s0. rewrite disposes_dis. rewrite C in I. cbn in I. apply orb_true_iff. left.
            apply existsb_exists. exists c. split; auto. apply keqb_refl.
          - clear IHr. replace (h ++ Next v :: r ++ [z']) with ((h ++ Next v :: r) ++ [z']) in E by (rewrite <- app_assoc; reflexivity). apply app_inj_tail in E. destruct E as (E & _).
            destruct (K _ E) as (X & _). destruct r; discriminate. }
        destruct H0 as (_ & H0). cbn in D0. rewrite H0 in D0. discriminate.
      + cbn [h_call] in *. rewrite end_log in E by now rewrite DF. destruct r as [|z r] using rev_ind; [apply app_inj_tail in E; destruct E as (_ & E); discriminate|]. clear IHr.
        replace (h ++ Next v :: r ++ [z]) with ((h ++ Next v :: r) ++ [z]) in E by (rewrite <- app_assoc; reflexivity). apply app_inj_tail in E. destruct E as (E & _). exfalso.
        destruct (K _ E) as (X & _). destruct r; discriminate.
      + cbn [h_call] in *. rewrite end_log in E by now rewrite DF. destruct r as [|z r] using rev_ind; [apply app_inj_tail in E; destruct E as (_ & E); discriminate|]. clear IHr.
        replace (h ++ Next v :: r ++ [z]) with ((h ++ Next v :: r) ++ [z]) in E by (rewrite <- app_assoc; reflexivity). apply app_inj_tail in E. destruct E as (E & _). exfalso.
        destruct (K _ E) as (X & _). destruct r; discriminate.
    - apply (K r). cbn [h_call] in E. rewrite upstream_eq, DF in E. exact E.
    - apply (K r). cbn [h_call] in E. now rewrite kdispose_log in E. }
  split; [exact (proj2 G)|]. split; [|intros; eapply INS; eauto].
  intros [A|(h & v & (t & E) & I)]; rewrite run_app; apply SIL.
  - apply in_split in A. destruct A as (a1 & a2 & ->). rewrite run_app. cbn [h_run fold_left h_call]. apply (run_mono cb hs [] (LExt (Some c))). apply kdispose_same.
  - rewrite <- app_assoc in E. exact (proj2 (INS cs h v t E I)).
Qed.
Print Assumptions C75_callbacks.

Example C75_case :
  let cs := [HUp 2 50; HEv 2 (Next 1); HDisp 2; HEv 2 (Next 2); HUp 2 51; HEv 3 (Next 3); HUp 3 52; HEv 3 Done; HEv 0 (Next 4)] in
  let s := h_run x_cb x_hs [LOwn 0] h_init cs in
  h_log s = [Next 1; Next 3; Done] /\ h_rel s = [50; 51; 50; 52; 52] /\ kdis s (KExt 3) = true.
Proof. vm_compute. auto. Qed.
Definition y_cb (h : list (ev nat)) (v : nat) : list nat * option exn := ([v], Some 1).
Example C75_callbacks_case : let s := h_run y_cb (fun _ => []) [LExt (Some 7)] h_init [HEv 0 (Next 7); HEv 0 (Next 8)] in h_log s = [Next 7] /\ kdis s (KExt 7) = true.
Proof. vm_compute. auto. Qed.
Example C75_throw_case : let s := h_run y_cb (fun _ => []) [LExt (Some 7)] h_init [HEv 0 (Next 8); HEv 0 (Next 7)] in h_log s = [Next 8; Err 1] /\ kdis s (KExt 7) = true.
Proof. vm_compute. auto. Qed.

(** Full statement for an observer subscribed with a disposable: once its callbacks got the end, the
    disposable is disposed.  Not if the end is the exception of on_next. *)
Definition C75_over_claim : Prop := forall (V : Type) (cb : hreact V) c own cs, let s := h_run cb (fun _ => [LExt (Some c)]) [LOwn own] h_init cs in
  has_terminal (h_log s) -> kdis s (KExt c) = true.
Theorem C75_over_refuted : ~ C75_over_claim.
Proof.
  intro H. specialize (H nat x_cb 0 0 [HEv 0 (Next 7)]). cbn in H. assert (T : false = true); [|discriminate]. apply H. right. exists 1. right. now left.
Qed.
Print Assumptions C75_over_refuted.
(** Full statement: no callback once the disposable is disposed.  Not if on_next disposes it and
    throws: on_error is called. *)
Definition C75_dispose_claim : Prop := forall (V : Type) (cb : hreact V) c own cs h v r,
  h_log (h_run cb (fun _ => [LExt (Some c)]) [LOwn own] h_init cs) = h ++ Next v :: r -> In c (fst (cb h v)) -> r = [].
Theorem C75_dispose_refuted : ~ C75_dispose_claim.
Proof.
  intro H. specialize (H nat y_cb 7 0 [HEv 0 (Next 7)] [] 7 [Err 1] eq_refl). discriminate H. now left.
Qed.
Print Assumptions C75_dispose_refuted.

(** Which overload of subscribe starts the source: never with a disposable that is disposed ... *)
Definition given (o : overload) : option (option nat) :=
  match o with SDObs d _ | PDObs d _ | SDStrat d | SDCall d => Some d | WObs f _ | WDyn f _ | WCall f => Some (Some f) | _ => None end.
Definition observer_of (o : overload) : list layer :=
  match o with SObs obs | SDObs _ obs | PDObs _ obs | WObs _ obs | WDyn _ obs => obs | _ => [] end.
Theorem C75_started : forall (V : Type) (s : hst V) o,
  (forall d, given o = Some d -> ldis s (LExt d) = true -> fst (subscribe s o) = None) /\
  ((forall d, given o = Some d -> ldis s (LExt d) = false) -> (forall c, o = SCall c -> kdis s (KOwn c) = false) -> dis s (observer_of o) = false ->
     exists st, fst (subscribe s o) = Some st /\ dis s st = false /\ (forall d, given o = Some d -> In (LExt d) st /\ snd (subscribe s o) = d)) /\
  ((forall d obs, o <> SDObs d obs) -> (forall f obs, o <> WDyn f obs) -> dis s (observer_of o) = true -> fst (subscribe s o) = None).
Proof.
  intros V s o. split; [|split].
  - intros d E D. destruct o; try discriminate; injection E as <-; cbn [subscribe fst]; unfold sub_d_observer, sub_observer; cbn [dis]; rewrite ?D; auto.
    cbn [fst]. destruct (dis s obs); auto.
  - intros G C D. destruct o as [obs|d obs|d obs|d|f obs|f obs|c|f|d]; cbn [observer_of given] in *; cbn [subscribe]; unfold sub_d_observer, sub_observer; cbn [dis ldis];
      try (specialize (G _ eq_refl)); cbn [ldis] in G; rewrite ?D, ?G; cbn [fst snd orb ldis].
    + exists obs. repeat split; auto; discriminate.
    + exists (LExt d :: obs). cbn. rewrite G, D. repeat split; auto; injection H as <-; auto.
    + exists (LExt d :: obs). cbn. rewrite G, D. repeat split; auto; injection H as <-; auto.
    + exists [LExt d]. cbn. rewrite G. repeat split; auto; injection H as <-; auto.
    + exists (LExt (Some f) :: obs). cbn. rewrite G, D. repeat split; auto; injection H as <-; auto.
    + exists (LExt (Some f) :: LNone :: obs). cbn. rewrite G, D. repeat split; auto; injection H as <-; auto.
    + rewrite (C c eq_refl). exists [LOwn c]. cbn. rewrite (C c eq_refl). repeat split; auto; discriminate.
    + exists [LExt (Some f)]. cbn. rewrite G. repeat split; auto; injection H as <-; auto.
    + exists [LExt d]. cbn. rewrite G. repeat split; auto; injection H as <-; auto.
  - intros N1 N2 D. destruct o as [obs|d obs|d obs|d|f obs|f obs|c|f|d]; cbn [observer_of] in D; try discriminate; cbn [subscribe]; unfold sub_observer; cbn [dis]; rewrite ?D, ?orb_true_r; auto.
    + exfalso. eapply N1; eauto.
    + exfalso. eapply N2; eauto.
Qed.
Print Assumptions C75_started.
(** ... and, full statement, never with an observer that is disposed.  subscribe(disposable, observer) and
    subscribe_with_disposable(dynamic observer) do. *)
Definition C75_started_claim : Prop := forall (V : Type) (s : hst V) o, dis s (observer_of o) = true -> fst (subscribe s o) = None.
Theorem C75_started_refuted : ~ C75_started_claim /\
  (forall (V : Type) (s : hst V) f obs, kdis s (KExt f) = false -> fst (subscribe s (WDyn f obs)) <> None) /\
  (forall (V : Type) (s : hst V) c obs, kdis s (KExt c) = false -> fst (subscribe s (SDObs (Some c) obs)) <> None).
Proof.
  split; [|split].
  - intro H. specialize (H nat (h_run x_cb (fun _ => []) [LOwn 0] h_init [HEv 0 Done]) (WDyn 5 [LOwn 0]) eq_refl). discriminate.
  - intros V s f obs D. cbn. unfold sub_d_observer. cbn. rewrite D. discriminate.
  - intros V s c obs D. cbn. unfold sub_d_observer. cbn. rewrite D. discriminate.
Qed.
Print Assumptions C75_started_refuted.
Example C75_started_case : let s := h_run x_cb (fun _ => []) [LOwn 0] h_init [HEv 0 Done; HDisp 3] in
  fst (subscribe s (PDObs (Some 4) [LOwn 0])) = None /\ fst (subscribe s (SDCall (Some 3))) = None /\ subscribe s (WObs 9 [LOwn 1]) = (Some [LExt (Some 9); LOwn 1], Some 9).
Proof. vm_compute. auto. Qed.
