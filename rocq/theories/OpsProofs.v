From Verif Require Import Base Machine MachineProofs OpsModel OpsSpec.

Ltac ok_tac := intros D L s d; cbn; split; intros; apply law_term; auto.

(** Common shape: done/err are forwarded. *)
Lemma fwd_ok : forall A B S (i : S) st nx, op_ok (Operator A B S i st nx fwd_err fwd_done).
Proof. intros. intros D L s d; cbn; split; intros; apply law_term; auto. Qed.

Ltac tcases H := destruct H as [->|[->|[? ->]]].

(** ---- map ---- *)
Lemma map_refines : forall A B (f : A -> res B), refines (map_op f) (map_spec f).
Proof.
  intros A B f. apply (principle (map_op f) (fun _ => True) (fun _ => map_spec f)); auto.
  - apply fwd_ok.
  - intros D L s d v _ Hd. cbn. destruct (f v) as [b|e]; cbn.
    + split; auto.
    + split; auto. intros. unfold lift_err; cbn. now rewrite Hd.
Qed.

(** ---- filter ---- *)
Lemma filter_refines : forall A (p : A -> res bool), refines (filter_op p) (filter_spec p).
Proof.
  intros A p. apply (principle (filter_op p) (fun _ => True) (fun _ => filter_spec p)); auto.
  - apply fwd_ok.
  - intros D L s d v _ Hd. cbn. destruct (p v) as [[|]|e]; cbn; split; auto.
    intros. unfold lift_err; cbn. now rewrite Hd.
Qed.

(** ---- take ---- *)
Lemma take_refines : forall A n, refines (@take_op A n) (take_spec n).
Proof.
  intros A n.
  apply (principle (take_op n) (fun _ => True) (fun k => take_spec k)); auto.
  - apply fwd_ok.
  - intros s _. unfold take_spec. cbn. destruct s as [|[|s]]; reflexivity.
  - intros D L s d _. unfold take_spec; cbn. destruct s as [|[|s]]; reflexivity.
  - intros D L s d e _. unfold take_spec; cbn. destruct s as [|[|s]]; reflexivity.
  - intros D L s d v _ Hd. cbn.
    destruct s as [|s]; cbn.
    + split; auto. intros vs t _. unfold take_spec; cbn. mr.
    + rewrite Nat.sub_0_r. split; auto. intros vs t _. unfold take_spec; cbn.
      destruct s as [|s]; cbn.
      * mr.
      * destruct (length vs <=? s); reflexivity.
Qed.

(** ---- skip ---- *)
Lemma skip_refines : forall A n, refines (@skip_op A n) (skip_spec n).
Proof.
  intros A n.
  apply (principle (skip_op n) (fun _ => True) (fun k => skip_spec k)); auto.
  - apply fwd_ok.
  - intros s _. unfold skip_spec. now rewrite skipn_nil.
  - intros D L s d _. unfold skip_spec. now rewrite skipn_nil.
  - intros D L s d e _. unfold skip_spec. now rewrite skipn_nil.
  - intros D L s d v _ Hd. cbn. destruct s as [|s]; cbn.
    + split; auto.
    + rewrite Nat.sub_0_r. split; auto.
Qed.

(** ---- element_at ---- *)
Lemma element_at_refines : forall A oor i,
  refines (@element_at_op A oor i) (element_at_spec oor i).
Proof.
  intros A oor i.
  apply (principle (element_at_op oor i) (fun k => k <> 0)
          (fun k => element_at_spec oor (k - 1))).
  - intros D L s d; cbn in *; split; intros; [destruct s; cbn|]; apply law_term; auto.
  - intros s _. unfold element_at_spec. destruct (s - 1); reflexivity.
  - intros D L s d H. unfold element_at_spec; cbn.
    cbn in s. destruct s as [|s]; [congruence|]. destruct (S s - 1); reflexivity.
  - intros D L s d e H. unfold element_at_spec; cbn. destruct (s - 1); reflexivity.
  - intros D L s d v H Hd. destruct s as [|s]; [congruence|]. cbn. rewrite Nat.sub_0_r.
    destruct s as [|s]; cbn.
    + split; [right; apply law_term; auto|].
      intros vs t _. unfold element_at_spec at 1; cbn.
      mr.
    + split; auto. intros vs t _. unfold element_at_spec; cbn. now rewrite Nat.sub_0_r.
  - cbn. lia.
  - intros D L d vs t _. cbn. now rewrite Nat.add_sub.
Qed.

(** ---- first ---- *)
Lemma first_refines : forall A nee, refines (@first_op A nee) (first_spec nee).
Proof.
  intros A nee.
  apply (principle (first_op nee) (fun _ => True) (fun _ => first_spec nee)); auto.
  - intros D L s d; cbn; split; intros; apply law_term; auto.
  - intros D L s d v _ Hd. cbn. split; auto. intros vs t _. mr.
Qed.

(** ---- last ---- *)
Lemma last_refines : forall A nee, refines (@last_op A nee) (last_spec nee).
Proof.
  intros A nee.
  apply (principle (last_op nee) (fun _ => True)
    (fun s vs t => last_spec nee (match s with Some v => [v] | None => [] end ++ vs) t)); auto.
  - intros D L s d; cbn; split; [destruct s|intros e]; apply law_term; auto.
  - intros D L s d _. destruct s; reflexivity.
  - intros D L s d v _ Hd. cbn. split; auto. intros vs t Ht.
    unfold last_spec. tcases Ht; auto.
    assert (E: forall x, match rev (x :: vs) with v0 :: _ => [Next v0; Done] | [] => [Err nee] end
                 = match rev vs with y :: _ => [Next y; Done] | [] => [Next x; Done] end).
    { intro x. cbn. destruct (rev vs) as [|y r] eqn:R; reflexivity. }
    destruct s as [w|]; cbn [app]; [|reflexivity].
    change (w :: v :: vs) with ([w] ++ (v :: vs)). rewrite rev_app_distr.
    destruct (rev (v :: vs)) as [|y r] eqn:R; [|reflexivity].
    exfalso. apply (f_equal (@length A)) in R. rewrite rev_length in R. discriminate.
Qed.

(** ---- take_while ---- *)
Lemma take_while_refines : forall A (p : A -> res bool), refines (take_while_op p) (take_while_spec p).
Proof.
  intros A p. apply (principle (take_while_op p) (fun _ => True) (fun _ => take_while_spec p)); auto.
  - apply fwd_ok.
  - intros D L s d v _ Hd. cbn. destruct (p v) as [[|]|e]; cbn; split; auto; intros.
    + mr.
    + unfold lift_err; cbn. now rewrite Hd.
Qed.

(** ---- distinct ---- *)
Lemma filter_filter : forall A (p q : A -> bool) l, filter p (filter q l) = filter (fun x => p x && q x) l.
Proof.
  induction l as [|x l IH]; cbn; auto.
  destruct (q x) eqn:Q; cbn; destruct (p x) eqn:P; cbn; rewrite ?IH, ?Q; auto.
Qed.

Lemma distinct_refines : forall A (eqb : A -> A -> bool),
  (forall x y, eqb x y = true <-> x = y) ->
  refines (distinct_op eqb) (distinct_spec eqb).
Proof.
  intros A eqb EQ.
  pose (keep := fun (seen : list A) (x : A) => negb (existsb (eqb x) seen)).
  apply (principle (distinct_op eqb) (fun _ => True)
    (fun seen vs t => map Next (filter (keep seen) (first_occurrences eqb vs)) ++ t)); auto.
  - apply fwd_ok.
  - intros D L seen d v _ Hd. cbn.
    destruct (existsb (eqb v) seen) eqn:E; cbn; split; auto; intros vs t _;
      rewrite filter_filter; unfold keep at 1 3; rewrite E; cbn.
    + f_equal. f_equal. f_equal. apply filter_ext. intro x. unfold keep.
      destruct (eqb x v) eqn:X; cbn; [|now rewrite andb_true_r].
      apply EQ in X. subst x. rewrite E. reflexivity.
    + rewrite mrun_cons. do 3 f_equal. apply filter_ext. intro x. unfold keep; cbn.
      rewrite negb_orb. apply andb_comm.
  - intros D L d vs t _. cbn. unfold distinct_spec. do 3 f_equal.
    rewrite <- (map_id (first_occurrences eqb vs)) at 2. rewrite map_id.
    induction (first_occurrences eqb vs); cbn; congruence.
Qed.

(** ---- distinct_until_changed ---- *)
Lemma duc_refines : forall A (cmp : A -> A -> res bool), refines (duc_op cmp) (duc_spec cmp).
Proof.
  intros A cmp.
  apply (principle (duc_op cmp) (fun _ => True)
    (fun s => match s with None => duc_spec cmp | Some l => duc_after cmp l end)); auto.
  - apply fwd_ok.
  - intros [s|] _; reflexivity.
  - intros D L [s|] d _; reflexivity.
  - intros D L [s|] d e _; reflexivity.
  - intros D L [s|] d v _ Hd; cbn.
    + destruct (cmp s v) as [[|]|e]; cbn; split; auto; intros.
      unfold lift_err; cbn. now rewrite Hd.
    + split; auto.
Qed.

(** ---- scan ---- *)
Lemma scan_refines : forall A B (f : B -> A -> res B) seed, refines (scan_op f seed) (scan_spec f seed).
Proof.
  intros A B f seed.
  apply (principle (scan_op f seed) (fun _ => True) (fun s => scan_from f s)); auto.
  - apply fwd_ok.
  - intros D L s d v _ Hd; cbn. destruct (f s v) as [b|e]; cbn; split; auto; intros.
    unfold lift_err; cbn. now rewrite Hd.
Qed.

Lemma scan1_refines : forall A (f : A -> A -> res A), refines (scan1_op f) (scan1_spec f).
Proof.
  intros A f.
  apply (principle (scan1_op f) (fun _ => True)
    (fun s => match s with None => scan1_spec f | Some a => scan_from f a end)); auto.
  - apply fwd_ok.
  - intros [s|] _; reflexivity.
  - intros D L [s|] d _; reflexivity.
  - intros D L [s|] d e _; reflexivity.
  - intros D L [s|] d v _ Hd; cbn.
    + destruct (f s v) as [b|e]; cbn; split; auto; intros.
      unfold lift_err; cbn. now rewrite Hd.
    + split; auto.
Qed.

(** ---- reduce ---- *)
Lemma reduce_refines : forall A B (f : B -> A -> res B) seed, refines (reduce_op f seed) (reduce_spec f seed).
Proof.
  intros A B f seed.
  apply (principle (reduce_op f seed) (fun _ => True) (fun s => reduce_spec f s)); auto.
  - intros D L s d; cbn; split; intros; apply law_term; auto.
  - intros D L s d v _ Hd; cbn. destruct (f s v) as [b|e] eqn:E; cbn; (split; [auto|]); intros vs t _;
      unfold lift_err, reduce_spec; cbn; rewrite E; [reflexivity | now rewrite Hd].
Qed.

Lemma reduce1_refines : forall A (f : A -> A -> res A), refines (reduce1_op f) (reduce1_spec f).
Proof.
  intros A f.
  apply (principle (reduce1_op f) (fun _ => True)
    (fun s => match s with None => reduce1_spec f | Some a => reduce_spec f a end)); auto.
  - intros D L s d; cbn; split; [destruct s|intros e]; apply law_term; auto.
  - intros [s|] _; reflexivity.
  - intros D L [s|] d _; reflexivity.
  - intros D L [s|] d e _; reflexivity.
  - intros D L [s|] d v _ Hd; cbn; [|split; auto].
    destruct (f s v) as [b|e] eqn:E; cbn; (split; [auto|]); intros vs t _;
      unfold lift_err, reduce_spec; cbn; rewrite E; [reflexivity | now rewrite Hd].
Qed.

(** ---- throttle ---- *)
Local Arguments Nat.ltb : simpl never.
Lemma throttle_refines : forall A dur, refines (@throttle_op A dur) (throttle_spec dur).
Proof.
  intros A dur.
  apply (principle (throttle_op dur) (fun _ => True)
    (fun s => match s with None => throttle_spec dur | Some l => throttle_after dur l end)); auto.
  - apply fwd_ok.
  - intros [s|] _; reflexivity.
  - intros D L [s|] d _; reflexivity.
  - intros D L [s|] d e _; reflexivity.
  - intros D L [s|] d [now v] _ Hd; cbn; [|split; auto].
    destruct (s + dur <=? now) eqn:E; split; auto; intros vs t _.
    + apply Nat.leb_le in E. replace (now <? s + dur) with false; [mr|]. symmetry; apply Nat.ltb_ge; lia.
    + apply Nat.leb_gt in E. replace (now <? s + dur) with true; [mr|]. symmetry; apply Nat.ltb_lt; lia.
Qed.

(** ---- buffer ---- *)
(** Chunking with a carried bucket: used as executable form of [buffer_rel]. *)
Fixpoint chunked {A} (n : nat) (b : list A) (vs : list A) (t : list (ev (list A))) : list (ev (list A)) :=
  match vs with
  | [] => match t with
          | [Done] => (match b with [] => [] | _ => [Next b] end) ++ [Done]
          | _ => t
          end
  | v :: r => if length (b ++ [v]) =? n then Next (b ++ [v]) :: chunked n [] r t
              else chunked n (b ++ [v]) r t
  end.

Lemma chunked_rel : forall A n vs t (b : list A), length b < n ->
  buffer_rel n (b ++ vs) t (chunked n b vs t).
Proof.
  intros A n. induction vs as [|v vs IH]; intros t b Hb; cbn [chunked].
  - exists [], b. cbn. rewrite app_nil_r. repeat split; auto.
  - destruct (length (b ++ [v]) =? n) eqn:E.
    + apply Nat.eqb_eq in E.
      destruct (IH t [] ltac:(cbn; lia)) as (full & rest & H1 & H2 & H3 & H4).
      exists ((b ++ [v]) :: full), rest. cbn. cbn in H1. rewrite H4.
      split; [|split; [|split]]; auto.
      rewrite H1 at 1. rewrite <- !app_assoc. reflexivity.
    + apply Nat.eqb_neq in E.
      replace (b ++ v :: vs) with ((b ++ [v]) ++ vs) by now rewrite <- app_assoc.
      apply IH. rewrite app_length in *. cbn in *. lia.
Qed.

Lemma buffer_refines : forall A n, 0 < n -> refines (@buffer_op A n) (chunked n []).
Proof.
  intros A n Hn.
  apply (principle (buffer_op n) (fun _ => True) (fun b => chunked n b)); auto.
  - intros D L s d; cbn; split; intros; apply law_term; auto.
  - intros D L [|x s] d _; reflexivity.
  - intros D L s d v _ Hd; cbn.
    destruct (length (s ++ [v]) =? n); split; auto.
Qed.

(** ---- take_last ---- *)
(** Ring invariant: rotating the data by m_current_end gives the last cap values. *)
Definition ring {A} (s : tl_state A) : list A :=
  skipn (tl_end s) (tl_data s) ++ firstn (tl_end s) (tl_data s).
Definition tl_inv {A} (cap : nat) (s : tl_state A) : Prop :=
  length (tl_data s) <= cap /\
  (length (tl_data s) < cap -> tl_end s = 0) /\
  (tl_data s <> [] -> tl_end s < length (tl_data s)) /\
  (tl_data s = [] -> tl_end s = 0).

Lemma set_nth_split : forall A (l : list A) i v, i < length l ->
  set_nth l i v = firstn i l ++ v :: skipn (S i) l.
Proof.
  induction l as [|x l IH]; intros [|i] v H; cbn in *; try lia; auto.
  rewrite IH by lia. reflexivity.
Qed.
Lemma set_nth_length : forall A (l : list A) i v, length (set_nth l i v) = length l.
Proof. induction l as [|x l IH]; intros [|i] v; cbn; auto. Qed.

Lemma lastn_all : forall A n (l : list A), length l <= n -> lastn n l = l.
Proof. intros. unfold lastn. replace (length l - n) with 0 by lia. reflexivity. Qed.
Lemma lastn_snoc_full : forall A n (l : list A) v, length l = n -> 0 < n ->
  lastn n (l ++ [v]) = skipn 1 l ++ [v].
Proof.
  intros A n l v H Hn. unfold lastn. rewrite app_length. cbn.
  replace (length l + 1 - n) with 1 by lia.
  destruct l; cbn in *; [lia|reflexivity].
Qed.
Lemma lastn_app_drop : forall A n (l m : list A), n <= length m -> lastn n (l ++ m) = lastn n m.
Proof.
  intros A n l m H. unfold lastn. rewrite app_length.
  replace (length l + length m - n) with (length l + (length m - n)) by lia.
  rewrite skipn_app. rewrite (skipn_all2 l) by lia. cbn. f_equal. lia.
Qed.
Lemma lastn_lastn : forall A n (l m : list A), lastn n (lastn n l ++ m) = lastn n (l ++ m).
Proof.
  intros A n l m. destruct (le_lt_dec (length l) n) as [H|H].
  - now rewrite (lastn_all A n l) by lia.
  - change (lastn n l) with (skipn (length l - n) l).
    assert (E: l ++ m = firstn (length l - n) l ++ (skipn (length l - n) l ++ m)).
    { now rewrite app_assoc, firstn_skipn. }
    rewrite E. symmetry. apply lastn_app_drop.
    rewrite app_length, skipn_length. lia.
Qed.

Lemma tl_flush_gen : forall A (D : machine A) n data pos d,
  pos + n <= length data ->
  snd (tl_flush D data n pos d) = mrun D d (map Next (firstn n (skipn pos data))) /\
  fst (tl_flush D data n pos d) = (if (n =? 0) then pos else if (pos + n =? length data) then 0 else pos + n).
Proof.
  induction n as [|n IH]; intros data pos d H; cbn.
  - auto.
  - destruct (nth_error data pos) as [v|] eqn:E.
    2:{ apply nth_error_None in E. lia. }
    assert (S: skipn pos data = v :: skipn (S pos) data).
    { clear -E. revert pos E. induction data as [|x data IH]; intros [|pos] E; cbn in *; try discriminate.
      - congruence.
      - apply IH; auto. }
    rewrite S. cbn [firstn map]. rewrite mrun_cons.
    unfold tl_next at 1 2. destruct (length data <=? pos + 1) eqn:F.
    + apply Nat.leb_le in F. assert (n = 0) by lia. subst n. cbn. split; auto.
      rewrite Nat.add_1_r. replace (Datatypes.S pos =? length data) with true; auto.
      symmetry; apply Nat.eqb_eq; lia.
    + apply Nat.leb_gt in F. replace (pos + 1) with (Datatypes.S pos) by lia.
      destruct (IH data (Datatypes.S pos) (mstep D d (Next v)) ltac:(lia)) as [I1 I2].
      split; auto. rewrite I2.
      replace (pos + Datatypes.S n) with (Datatypes.S pos + n) by lia.
      destruct n; cbn.
      * replace (pos + 0) with pos by lia. destruct (length data); [lia|].
        replace (pos =? n) with false; auto. symmetry; apply Nat.eqb_neq; lia.
      * reflexivity.
Qed.

Lemma tl_flush_app : forall A (D : machine A) n m data pos d,
  tl_flush D data (n + m) pos d =
  tl_flush D data m (fst (tl_flush D data n pos d)) (snd (tl_flush D data n pos d)).
Proof. induction n as [|n IH]; intros; cbn; auto. Qed.

Lemma tl_flush_ring : forall A (D : machine A) (s : tl_state A) cap d, tl_inv cap s ->
  snd (tl_flush D (tl_data s) (length (tl_data s)) (tl_end s) d) = mrun D d (map Next (ring s)).
Proof.
  intros A D [data e] cap d (I1 & I2 & I3 & I4). unfold ring; cbn in *.
  destruct data as [|x data]; [rewrite (I4 eq_refl); reflexivity|].
  set (l := x :: data) in *. assert (e < length l) by (apply I3; discriminate).
  replace (length l) with ((length l - e) + e) at 1 by lia.
  rewrite tl_flush_app.
  destruct (tl_flush_gen A D (length l - e) l e d ltac:(lia)) as [F1 F2].
  rewrite F1, F2. replace (e + (length l - e) =? length l) with true by (symmetry; apply Nat.eqb_eq; lia).
  replace (length l - e =? 0) with false by (symmetry; apply Nat.eqb_neq; lia).
  destruct (tl_flush_gen A D e l 0 (mrun D d (map Next (firstn (length l - e) (skipn e l)))) ltac:(lia)) as [G1 _].
  rewrite G1. rewrite map_app, mrun_app. cbn [skipn].
  f_equal. f_equal. f_equal. apply firstn_all2. rewrite skipn_length. lia.
Qed.

Local Arguments lastn : simpl never.
Lemma ring_push : forall A cap (s : tl_state A) v, tl_inv cap s -> 0 < cap ->
  let s' := if length (tl_data s) <? cap then TL (tl_data s ++ [v]) (tl_end s)
            else TL (set_nth (tl_data s) (tl_end s) v) (tl_next (length (tl_data s)) (tl_end s)) in
  tl_inv cap s' /\ ring s' = lastn cap (ring s ++ [v]).
Proof.
  intros A cap [data e] v (I1 & I2 & I3 & I4) Hc; cbn in *.
  destruct (length data <? cap) eqn:E.
  - apply Nat.ltb_lt in E. rewrite (I2 E) in *. unfold tl_inv, ring; cbn.
    rewrite app_length; cbn. rewrite !app_nil_r. split; [repeat split; intros; lia|].
    symmetry. apply lastn_all. rewrite app_length; cbn; lia.
  - apply Nat.ltb_ge in E.
    assert (NE: data <> []) by (intro; subst; cbn in *; lia).
    specialize (I3 NE). unfold tl_inv; cbn. rewrite set_nth_length.
    split.
    + unfold tl_next. destruct (length data <=? e + 1) eqn:F.
      * repeat split; intros; lia.
      * apply Nat.leb_gt in F. repeat split; try lia.
        intro Z. apply (f_equal (@length A)) in Z. rewrite set_nth_length in Z. cbn in Z. lia.
    + assert (RL: length (skipn e data ++ firstn e data) = cap)
        by (rewrite app_length, skipn_length, firstn_length; lia).
      unfold ring; cbn [tl_end tl_data].
      rewrite (lastn_snoc_full A cap _ v RL Hc).
      rewrite set_nth_split by lia.
      assert (S: exists x, skipn e data = x :: skipn (S e) data).
      { clear -I3. revert e I3. induction data as [|x data IH]; intros [|e] I3; cbn in *; try lia; eauto.
        apply IH. lia. }
      destruct S as [x S]. remember (skipn (Datatypes.S e) data) as R eqn:HR.
      rewrite S. change (skipn 1 ((x :: R) ++ firstn e data)) with (R ++ firstn e data).
      unfold tl_next. destruct (length data <=? e + 1) eqn:F.
      * apply Nat.leb_le in F. rewrite (skipn_all2 data) in HR by lia. subst R.
        cbn. now rewrite app_nil_r.
      * apply Nat.leb_gt in F.
        assert (FL: length (firstn e data) = e) by (rewrite firstn_length; lia).
        rewrite skipn_app, firstn_app, FL.
        replace (e + 1 - e) with 1 by lia. change (skipn 1 (v :: R)) with R. change (firstn 1 (v :: R)) with [v].
        rewrite (skipn_all2 (firstn e data)) by lia.
        rewrite (firstn_all2 (firstn e data)) by lia. cbn [app]. now rewrite <- app_assoc.
Qed.

Lemma take_last_refines : forall A cap, refines (@take_last_op A cap) (take_last_spec cap).
Proof.
  intros A cap.
  apply (principle (take_last_op cap) (tl_inv cap)
    (fun s vs t => take_last_spec cap (ring s ++ vs) t)).
  - intros D L s d; cbn; split; intros; [destruct (tl_flush _ _ _ _ _); cbn|]; apply law_term; auto.
  - reflexivity.
  - intros D L s d I. cbn. rewrite app_nil_r.
    pose proof (tl_flush_ring A D s cap d I) as F.
    destruct (tl_flush D (tl_data s) (length (tl_data s)) (tl_end s) d) as [pos d'].
    cbn in *. subst d'. unfold take_last_spec.
    rewrite lastn_all, mrun_app; [reflexivity|].
    unfold ring. rewrite app_length, skipn_length, firstn_length. destruct I as [I _]. lia.
  - intros. reflexivity.
  - intros D L s d v I Hd. cbn.
    destruct (cap =? 0) eqn:C.
    + apply Nat.eqb_eq in C. subst cap. split; auto. intros vs t Ht.
      assert (Z: forall l : list A, lastn 0 l = []).
      { intro l. unfold lastn. rewrite Nat.sub_0_r. now apply skipn_all2. }
      unfold take_last_spec. now rewrite !Z.
    + apply Nat.eqb_neq in C.
      pose proof (ring_push A cap s v I ltac:(lia)) as R. cbn in R.
      destruct (length (tl_data s) <? cap); destruct R as [R1 R2]; split; auto; intros vs t Ht;
        unfold take_last_spec; rewrite R2, lastn_lastn, <- app_assoc; reflexivity.
  - repeat split; cbn; auto; try lia. congruence.
  - reflexivity.
Qed.
