(** Proofs about observers in layers. *)
From Verif Require Import Base ObserverSpec ObserverModel HandleSpec HandleModel.

Lemma keqb_refl : forall k, keqb k k = true.
Proof. intros [c|c]; cbn; apply Nat.eqb_refl. Qed.
Lemma keqb_eq : forall a b, keqb a b = true -> a = b.
Proof. intros [x|x] [y|y] H; try discriminate; apply Nat.eqb_eq in H; now subst. Qed.

Definition keys (st : list layer) : list key := flat_map (fun l => opt_list (lkey l)) st.
Lemma keys_app : forall a b, keys (a ++ b) = keys a ++ keys b.
Proof. intros. apply flat_map_app. Qed.
Lemma in_keys : forall st k, In k (keys st) <-> exists l, In l st /\ lkey l = Some k.
Proof.
  intros. unfold keys. rewrite in_flat_map. split; intros (l & A & B); exists l; (split; [auto|]).
  - destruct (lkey l); cbn in B; [destruct B as [->|[]]; auto | destruct B].
  - rewrite B. now left.
Qed.

Section P.
  Context {V : Type}.
  Variable cb : hreact V.
  Implicit Types s : hst V.

  Lemma kdis_in : forall s k, kdis s k = true <-> In k (h_dis s).
  Proof.
    intros. unfold kdis. rewrite existsb_exists. split; [intros (x & A & B); apply keqb_eq in B; now subst | intro; exists k; split; auto; apply keqb_refl].
  Qed.
  Lemma kdispose_same : forall s k, kdis (kdispose s k) k = true.
  Proof. intros. unfold kdispose. destruct (kdis s k) eqn:E; auto. unfold kdis. cbn. now rewrite keqb_refl. Qed.
  Lemma kdispose_dis : forall s k k', kdis (kdispose s k) k' = keqb k' k || kdis s k'.
  Proof.
    intros. unfold kdispose. destruct (kdis s k) eqn:E; [|reflexivity]. destruct (keqb k' k) eqn:F; auto. apply keqb_eq in F. now subst.
  Qed.
  Lemma kdispose_log : forall s k, h_log (kdispose s k) = h_log s.
  Proof. intros. unfold kdispose. now destruct (kdis s k). Qed.
  Lemma kdispose_kids : forall s k, h_kids (kdispose s k) = h_kids s.
  Proof. intros. unfold kdispose. now destruct (kdis s k). Qed.

  Lemma ldis_key : forall s l, ldis s l = match lkey l with Some k => kdis s k | None => match l with LExt None => true | _ => false end end.
  Proof. intros s [[c|]|c|]; reflexivity. Qed.
  Lemma dis_app : forall s a b, dis s (a ++ b) = dis s a || dis s b.
  Proof. induction a; intros; auto. cbn. rewrite IHa. now rewrite orb_assoc. Qed.
  Lemma dis_true : forall s st, dis s st = true <-> exists l, In l st /\ ldis s l = true.
  Proof.
    induction st as [|l r IH]; cbn; [split; [discriminate | intros (l & [] & _)]|]. rewrite orb_true_iff, IH. split.
    - intros [H|(x & A & B)]; eauto.
    - intros (x & [<-|A] & B); eauto.
  Qed.
  Lemma dis_mono : forall s s' st, (forall k, kdis s k = true -> kdis s' k = true) -> dis s st = true -> dis s' st = true.
  Proof.
    intros s s' st H D. rewrite dis_true in *. destruct D as (l & A & B). exists l. split; auto. rewrite ldis_key in *. destruct (lkey l); auto.
  Qed.
  Lemma dis_key : forall s st k, In k (keys st) -> kdis s k = true -> dis s st = true.
  Proof. intros s st k I D. apply dis_true. apply in_keys in I. destruct I as (l & A & B). exists l. split; auto. now rewrite ldis_key, B. Qed.

  (** ** The layers unrolled *)
  Definition ldisposes s (st : list layer) : hst V := fold_right (fun l s => ldispose s l) s st.
  Lemma on_end_eq : forall st s e, dis s st = false -> on_end s st e = ldisposes (fire s e) st.
  Proof.
    induction st as [|l r IH]; intros s e D; auto. cbn [on_end ldisposes fold_right]. rewrite D. cbn in D. apply orb_false_iff in D. now rewrite IH.
  Qed.
  Lemma on_end_dis : forall st s e, dis s st = true -> on_end s st e = s.
  Proof. intros [|l r] s e D; [discriminate|]. cbn [on_end]. now rewrite D. Qed.

  (** What the bottom observer does with a value. *)
  Definition bottom s (l : layer) (v : V) : hst V :=
    let '(ds, x) := cb (h_log s) v in
    let s0 := fold_left (fun s c => kdispose s (KExt c)) ds (fire s (Next v)) in
    match x with None => s0 | Some e => on_end s0 [l] (Err e) end.
  Lemma on_next_eq : forall p s l v, on_next cb s (p ++ [l]) v = (if dis s (p ++ [l]) then s else bottom s l v, None).
  Proof.
    induction p as [|a p IH]; intros s l v.
    - cbn [app on_next]. destruct (dis s [l]) eqn:D; auto. unfold bottom. destruct (cb (h_log s) v) as [ds [e|]]; reflexivity.
    - cbn [app on_next]. destruct (dis s (a :: p ++ [l])) eqn:D; auto. rewrite IH. cbn in D. apply orb_false_iff in D. destruct D as (_ & ->). reflexivity.
  Qed.
  Lemma upstream_eq : forall st s u, upstream s st u =
    if dis s st then HS (h_dis s) (h_kids s) (h_rel s ++ [u]) (h_log s)
    else HS (h_dis s) (h_kids s ++ map (fun k => (k, u)) (keys st)) (h_rel s) (h_log s).
  Proof.
    induction st as [|l r IH]; intros s u; [cbn; rewrite app_nil_r; now destruct s|].
    cbn [upstream]. destruct (dis s (l :: r)) eqn:D; auto. cbn in D. apply orb_false_iff in D. destruct D as (D1 & D2). rewrite IH.
    assert (E : forall st, dis (ladd s l u) st = dis s st).
    { intro st. assert (K : forall k, kdis (ladd s l u) k = kdis s k) by (intro; unfold ladd; destruct (lkey l); auto; unfold kadd; now destruct (kdis s k0)).
      induction st as [|x st IHs]; auto. cbn. rewrite IHs. f_equal. rewrite !ldis_key. now destruct (lkey x). }
    rewrite E, D2. unfold ladd. rewrite ldis_key in D1. cbn [keys flat_map]. destruct (lkey l); auto. unfold kadd. rewrite D1. cbn. now rewrite <- app_assoc.
  Qed.

  Lemma ldisposes_log : forall st s, h_log (ldisposes s st) = h_log s.
  Proof. induction st as [|l r IH]; intros; auto. cbn. unfold ldispose. destruct (lkey l); [rewrite kdispose_log|]; apply IH. Qed.
  Lemma ldisposes_mono : forall st s k, kdis s k = true -> kdis (ldisposes s st) k = true.
  Proof. induction st as [|l r IH]; intros s k H; auto. cbn. unfold ldispose. destruct (lkey l); [rewrite kdispose_dis, orb_true_iff; right|]; now apply IH. Qed.
  Lemma ldisposes_keys : forall st s k, In k (keys st) -> kdis (ldisposes s st) k = true.
  Proof.
    induction st as [|l r IH]; intros s k H; [destruct H|]. cbn in *. apply in_app_iff in H. unfold ldispose. destruct (lkey l) as [k'|]; cbn in H.
    - rewrite kdispose_dis, orb_true_iff. destruct H as [[->|[]]|H]; [left; apply keqb_refl | right; auto].
    - destruct H as [[]|H]; auto.
  Qed.
  Definition disposes s (ds : list nat) : hst V := fold_left (fun s c => kdispose s (KExt c)) ds s.
  Lemma disposes_log : forall ds s, h_log (disposes s ds) = h_log s.
  Proof. induction ds as [|c ds IH]; intros; auto. cbn. fold (disposes (kdispose s (KExt c)) ds). now rewrite IH, kdispose_log. Qed.
  Lemma disposes_dis : forall ds s k, kdis (disposes s ds) k = existsb (fun c => keqb k (KExt c)) ds || kdis s k.
  Proof.
    induction ds as [|c ds IH]; intros; auto. cbn. fold (disposes (kdispose s (KExt c)) ds). rewrite IH, kdispose_dis.
    destruct (existsb _ ds), (keqb k (KExt c)), (kdis s k); reflexivity.
  Qed.

  (** ** Invariants *)
  Variable hs : nat -> list layer.
  Variable b0 : list layer.
  Variable l0 : layer.
  Hypothesis L0 : l0 <> LNone.
  Let base := b0 ++ [l0].
  Notation full := (full hs base).
  Notation h_call := (h_call cb hs base).
  Notation h_run := (h_run cb hs base).

  Lemma full_app : forall i, full i = (hs i ++ b0) ++ [l0].
  Proof. intro. unfold HandleModel.full, base. now rewrite app_assoc. Qed.
  Lemma dis_full_l0 : forall s i, dis s (full i) = false -> ldis s l0 = false.
  Proof. intros s i D. rewrite full_app, dis_app in D. apply orb_false_iff in D. destruct D as (_ & D). cbn in D. now rewrite orb_false_r in D. Qed.

  Definition G s : Prop := grammatical (h_log s) /\ (has_terminal (h_log s) -> ldis s l0 = true).
  Lemma gram_next : forall (l : list (ev V)) v, grammatical l -> ~ has_terminal l -> grammatical (l ++ [Next v]).
  Proof.
    intros l v (vs & t & -> & T) N. assert (t = []).
    { destruct T as [->|[->|(e & ->)]]; auto; exfalso; apply N; unfold has_terminal; [left | right; exists e]; apply in_or_app; right; now left. }
    subst t. exists (vs ++ [v]), []. split; auto. rewrite map_app, !app_nil_r. reflexivity.
  Qed.
  Lemma gram_end : forall (l : list (ev V)) e, grammatical l -> ~ has_terminal l -> is_term e = true -> grammatical (l ++ [e]).
  Proof.
    intros l e (vs & t & -> & T) N E. assert (t = []).
    { destruct T as [->|[->|(x & ->)]]; auto; exfalso; apply N; unfold has_terminal; [left | right; exists x]; apply in_or_app; right; now left. }
    subst t. exists vs, [e]. rewrite app_nil_r. split; auto. destruct e; [discriminate | eauto | auto].
  Qed.
  Lemma term_next : forall (l : list (ev V)) v, has_terminal (l ++ [Next v]) -> has_terminal l.
  Proof. intros l v [H|(e & H)]; apply in_app_iff in H; destruct H as [H|[H|[]]]; try discriminate; [left | right]; eauto. Qed.
  Lemma end_l0 : forall st s e, In l0 st -> dis s st = false -> ldis (on_end s st e) l0 = true.
  Proof.
    intros st s e I D. rewrite on_end_eq by auto. rewrite ldis_key. destruct (lkey l0) as [k|] eqn:K.
    - apply ldisposes_keys. apply in_keys. eauto.
    - destruct l0 as [[c|]|c|]; try discriminate; [reflexivity | congruence].
  Qed.
  Lemma end_log : forall st s e, dis s st = false -> h_log (on_end s st e) = h_log s ++ [e].
  Proof. intros. now rewrite on_end_eq, ldisposes_log. Qed.
  Lemma alive_open : forall s, G s -> ldis s l0 = false -> ~ has_terminal (h_log s).
  Proof. intros s (_ & H) D T. apply H in T. congruence. Qed.
  Lemma G_end : forall s st e, G s -> In l0 st -> is_term e = true -> G (on_end s st e).
  Proof.
    intros s st e GS I T. destruct (dis s st) eqn:D; [now rewrite on_end_dis|]. split.
    - rewrite end_log by auto. apply gram_end; auto; [apply GS|]. apply alive_open; auto. destruct (ldis s l0) eqn:E; auto. exfalso.
      assert (dis s st = true) by (apply dis_true; eauto). congruence.
    - intros _. now apply end_l0.
  Qed.
  Lemma l0_mono : forall s s', (forall k, kdis s k = true -> kdis s' k = true) -> ldis s l0 = true -> ldis s' l0 = true.
  Proof. intros s s' M. rewrite !ldis_key. destruct (lkey l0); auto. Qed.
  Lemma G_call : forall s c, G s -> G (h_call s c).
  Proof.
    intros s c GS. destruct c as [i e|i u|c]; cbn [HandleModel.h_call].
    - assert (I : In l0 (full i)) by (rewrite full_app; apply in_or_app; right; now left).
      destruct e as [v|x|]; [|now apply G_end | now apply G_end].
      rewrite full_app, on_next_eq. rewrite <- full_app. destruct (dis s (full i)) eqn:D; auto. cbn [fst]. unfold bottom. destruct (cb (h_log s) v) as [ds x] eqn:C.
      fold (disposes (fire s (Next v)) ds). set (s0 := disposes (fire s (Next v)) ds).
      assert (G0 : G s0).
      { pose proof (alive_open s GS (dis_full_l0 _ _ D)) as N. split.
        - unfold s0. rewrite disposes_log. apply gram_next; auto. apply GS.
        - intro T. exfalso. apply N. unfold s0 in T. rewrite disposes_log in T. exact (term_next _ _ T). }
      destruct x; auto. apply G_end; auto. now left.
    - rewrite upstream_eq. destruct GS as (A & B). destruct (dis s (full i)); split; auto; cbn; intro T; specialize (B T); rewrite ldis_key in *; now destruct (lkey l0).
    - destruct GS as (A & B). split; rewrite kdispose_log; auto. intro T. apply (l0_mono s); auto. intros k K. rewrite kdispose_dis, K. apply orb_true_r.
  Qed.
  Lemma G_run : forall cs, G (h_run h_init cs).
  Proof.
    intro cs. unfold HandleModel.h_run. rewrite <- fold_left_rev_right. induction (rev cs) as [|c r IH]; cbn; [|now apply G_call].
    split; [exists [], []; auto | intros [[]|(e & [])]].
  Qed.

  (** Held, released, disposed: and why. *)
  Record J (cs : list (hcall V)) s : Prop := {
    j_held : forall i u, In (i, u) (handed cs) -> In u (h_rel s) \/ forall k, In k (keys (full i)) -> In (k, u) (h_kids s);
    j_rel : forall k u, In (k, u) (h_kids s) -> kdis s k = true -> In u (h_rel s);
    j_of : forall k u, In (k, u) (h_kids s) -> exists i, In (i, u) (handed cs) /\ In k (keys (full i));
    j_why : forall u, In u (h_rel s) -> exists i, In (i, u) (handed cs) /\ dis s (full i) = true;
    j_dis : forall c, kdis s (KExt c) = true -> asked_for cb cs (h_log s) c \/ has_terminal (h_log s) }.

  Lemma handed_app : forall a b : list (hcall V), handed (a ++ b) = handed a ++ handed b.
  Proof. induction a as [|[i e|i u|c] a IH]; intros; cbn; rewrite ?IH; auto. Qed.
  Lemma J_kdispose : forall cs s k, J cs s -> (forall c, k = KExt c -> asked_for cb cs (h_log s) c \/ has_terminal (h_log s)) -> J cs (kdispose s k).
  Proof.
    intros cs s k [A B C D E] W. unfold kdispose. destruct (kdis s k) eqn:K; [now constructor|].
    assert (M : forall k', kdis s k' = true -> kdis (HS (k :: h_dis s) (h_kids s) (h_rel s ++ map snd (filter (fun x => keqb k (fst x)) (h_kids s))) (h_log s)) k' = true) by (intros k' H; unfold kdis; cbn; apply orb_true_iff; right; exact H).
    constructor; cbn.
    - intros i u I. destruct (A i u I) as [H|H]; [left; apply in_or_app; auto | auto].
    - intros k' u I H. apply in_or_app. unfold kdis in H. cbn in H. apply orb_true_iff in H. destruct H as [H|H]; [|left; eapply B; eauto].
      right. apply keqb_eq in H. subst k'. apply in_map_iff. exists (k, u). split; auto. apply filter_In. split; auto. apply keqb_refl.
    - auto.
    - intros u I. apply in_app_iff in I. destruct I as [I|I].
      + destruct (D u I) as (i & P & Q). exists i. split; auto. eapply dis_mono; eauto.
      + apply in_map_iff in I. destruct I as ([k' u'] & <- & I). apply filter_In in I. destruct I as (I & Q). cbn in Q. apply keqb_eq in Q. subst k'.
        destruct (C _ _ I) as (i & P & R). exists i. split; auto. apply (dis_key _ _ _ R). unfold kdis. cbn. now rewrite keqb_refl.
    - intros c H. unfold kdis in H. cbn in H. apply orb_true_iff in H. destruct H as [H|H]; [|auto]. apply W. destruct k as [y|]; [apply Nat.eqb_eq in H; now subst | discriminate].
  Qed.
  Lemma asked_mono : forall cs cs' log log' c, asked_for cb cs log c -> (forall x, In x cs -> In x cs') -> prefix log log' -> asked_for cb cs' log' c.
  Proof.
    intros cs cs' log log' c [H|(h & v & (t & ->) & I)] S (t' & ->); [left; auto|]. right. exists h, v. split; auto. exists (t ++ t'). now rewrite app_assoc.
  Qed.
  Lemma term_app : forall (a b : list (ev V)), has_terminal a -> has_terminal (a ++ b).
  Proof. intros a b [H|(e & H)]; [left | right; exists e]; apply in_or_app; auto. Qed.
  Lemma J_fire : forall cs s e, J cs s -> J cs (fire s e).
  Proof.
    intros cs s e [A B C D E]. constructor; auto; cbn.
    { intros u I. destruct (D u I) as (i & P & Q). exists i. split; auto. now apply (dis_mono s). }
    intros c H. destruct (E c H) as [H1|H1]; [left | right; now apply term_app].
    eapply asked_mono; eauto. now exists [e].
  Qed.
  Lemma J_ldisposes : forall cs st s, J cs s -> has_terminal (h_log s) -> J cs (ldisposes s st).
  Proof.
    induction st as [|l r IH]; intros s H T; auto. cbn. unfold ldispose. destruct (lkey l); [|auto]. apply J_kdispose; auto. intros. right. now rewrite ldisposes_log.
  Qed.
  Lemma J_end : forall cs s st e, J cs s -> is_term e = true -> J cs (on_end s st e).
  Proof.
    intros cs s st e H T. destruct (dis s st) eqn:D; [now rewrite on_end_dis|]. rewrite on_end_eq by auto. apply J_ldisposes; [now apply J_fire|].
    cbn. destruct e; [discriminate | right; exists e | left]; apply in_or_app; right; now left.
  Qed.
  Lemma J_disposes : forall cs ds s, J cs s -> (forall c, In c ds -> asked_for cb cs (h_log s) c) -> J cs (disposes s ds).
  Proof.
    induction ds as [|c ds IH]; intros s H W; auto. cbn. apply IH.
    - apply J_kdispose; auto. intros c' E. injection E as <-. left. apply W. now left.
    - intros c' I. rewrite kdispose_log. apply W. now right.
  Qed.
  Lemma J_weak : forall cs c s, J cs s -> (forall i u, c <> HUp i u) -> J (cs ++ [c]) s.
  Proof.
    intros cs c s [A B C D E] N. assert (H : handed (cs ++ [c]) = handed cs) by (rewrite handed_app; destruct c; cbn; rewrite ?app_nil_r; auto; exfalso; eapply N; eauto).
    constructor; rewrite ?H; auto. intros c' K. destruct (E c' K) as [H1|H1]; auto. left. eapply asked_mono; eauto; [intros; apply in_or_app; auto | now exists []; rewrite app_nil_r].
  Qed.
  Lemma J_call : forall cs s c, J cs s -> J (cs ++ [c]) (h_call s c).
  Proof.
    intros cs s c H. destruct c as [i e|i u|c]; cbn [HandleModel.h_call].
    - assert (H' : J (cs ++ [HEv i e]) s) by (apply J_weak; auto; discriminate). destruct e as [v|x|]; [|now apply J_end | now apply J_end].
      rewrite full_app, on_next_eq. rewrite <- full_app. destruct (dis s (full i)) eqn:D; auto. cbn [fst]. unfold bottom. destruct (cb (h_log s) v) as [ds x] eqn:C.
      fold (disposes (fire s (Next v)) ds).
      assert (J (cs ++ [HEv i (Next v)]) (disposes (fire s (Next v)) ds)).
      { apply J_disposes; [now apply J_fire|]. intros c I. right. exists (h_log s), v. split; [now exists []; rewrite app_nil_r | now rewrite C]. }
      destruct x; auto. now apply J_end.
    - rewrite upstream_eq. destruct H as [A B C D E].
      assert (E' : forall c, kdis s (KExt c) = true -> asked_for cb (cs ++ [HUp i u]) (h_log s) c \/ has_terminal (h_log s)).
      { intros c' K. destruct (E c' K) as [H1|H1]; auto. left. eapply asked_mono; eauto; [intros; apply in_or_app; auto | now exists []; rewrite app_nil_r]. }
      destruct (dis s (full i)) eqn:F; constructor; auto; rewrite ?handed_app; cbn [h_rel h_kids handed].
      + intros j w I. apply in_app_iff in I. destruct I as [I|[I|[]]]; [destruct (A _ _ I) as [H|H]; [left; apply in_or_app; auto | auto]|].
        injection I as -> ->. left. apply in_or_app. right. now left.
      + intros k w I K. apply in_or_app. left. eapply B; eauto.
      + intros k w I. destruct (C _ _ I) as (j & P & Q). exists j. split; auto. apply in_or_app. auto.
      + intros w I. apply in_app_iff in I. destruct I as [I|[<-|[]]].
        * destruct (D _ I) as (j & P & Q). exists j. split; [apply in_or_app; auto | now apply (dis_mono s)].
        * exists i. split; [apply in_or_app; right; now left | now apply (dis_mono s)].
      + intros j w I. apply in_app_iff in I. destruct I as [I|[I|[]]].
        * destruct (A _ _ I) as [H|H]; auto. right. intros k K. apply in_or_app. auto.
        * injection I as -> ->. right. intros k K. apply in_or_app. right. apply in_map_iff. eauto.
      + intros k w I K. apply in_app_iff in I. destruct I as [I|I]; [eapply B; eauto|]. apply in_map_iff in I. destruct I as (k' & I & Q). injection I as -> ->.
        exfalso. assert (dis s (full i) = true) by (eapply dis_key; eauto). congruence.
      + intros k w I. apply in_app_iff in I. destruct I as [I|I].
        * destruct (C _ _ I) as (j & P & Q). exists j. split; auto. apply in_or_app. auto.
        * apply in_map_iff in I. destruct I as (k' & I & Q). injection I as -> ->. exists i. split; auto. apply in_or_app. right. now left.
      + intros w I. destruct (D _ I) as (j & P & Q). exists j. split; [apply in_or_app; auto | now apply (dis_mono s)].
    - apply J_kdispose; [apply J_weak; auto; discriminate|]. intros c' E. injection E as <-. left. left. apply in_or_app. right. now left.
  Qed.
  Lemma J_run : forall cs, J cs (h_run h_init cs).
  Proof.
    intro cs. induction cs as [|c cs IH] using rev_ind; [|unfold HandleModel.h_run in *; rewrite fold_left_app; now apply J_call].
    constructor; cbn; try tauto. discriminate.
  Qed.
  Lemma call_mono : forall s c k, kdis s k = true -> kdis (h_call s c) k = true.
  Proof.
    intros s c k K.
    assert (EN : forall s st e, kdis s k = true -> kdis (on_end s st e) k = true).
    { clear s K. intros s st e K. destruct (dis s st) eqn:D; [now rewrite on_end_dis|]. rewrite on_end_eq by auto. now apply ldisposes_mono. }
    destruct c as [i e|i u|c]; cbn [HandleModel.h_call].
    - destruct e as [v|x|]; auto. rewrite full_app, on_next_eq. destruct (dis _ _); auto. cbn [fst]. unfold bottom. destruct (cb (h_log s) v) as [ds x].
      fold (disposes (fire s (Next v)) ds). assert (kdis (disposes (fire s (Next v)) ds) k = true) by (rewrite disposes_dis; apply orb_true_iff; right; exact K). destruct x; auto.
    - rewrite upstream_eq. now destruct (dis s (full i)).
    - rewrite kdispose_dis, K. apply orb_true_r.
  Qed.
  Lemma run_mono : forall cs s k, kdis s k = true -> kdis (h_run s cs) k = true.
  Proof. induction cs as [|c cs IH]; intros; auto. cbn. apply IH. now apply call_mono. Qed.
End P.
Lemma run_app : forall V (cb : hreact V) hs base a b s, h_run cb hs base s (a ++ b) = h_run cb hs base (h_run cb hs base s a) b.
Proof. intros. apply fold_left_app. Qed.
