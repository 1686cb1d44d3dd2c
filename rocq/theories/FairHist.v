(** The order of the runs, and what the operators make of it. *)
From Coq Require Import Sorted.
From Verif Require Import Base Machine MachineProofs MultiSpec MultiModel MultiLin MultiCount MultiProofs MultiSeq MultiProps.
From Verif Require Import SchedSpec SchedModel FairSpec FairModel FairProofs.
Open Scope nat_scope.

(** ** The ring used up *)
Section Order.
  Variable lens : list nat.
  Notation k := (length lens).
  Notation need i := (needs (nth i lens 0)).
  Notation drains := (drains lens).

  Lemma drains_det : forall ring a b, drains ring a -> drains ring b -> a = b.
  Proof.
    intros ring a b H. revert b. induction H; intros b0 H0; inversion H0; subst; auto. f_equal. auto.
  Qed.
  Definition left_of (x : item2) : nat := need (fst x) - snd x.
  Lemma drains_total : forall n ring, list_sum (map left_of ring) + length ring <= n -> Forall (fun x => snd x < need (fst x)) ring -> exists out, drains ring out.
  Proof.
    induction n as [|n IH]; intros ring L F; destruct ring as [|[i r] q]; try (exists []; constructor).
    - cbn in L. lia.
    - inversion F as [|? ? R0 F']; subst. cbn [fst snd] in R0. cbn [map list_sum fold_right length] in L. change (fold_right plus 0 (map left_of q)) with (list_sum (map left_of q)) in L.
      unfold left_of at 1 in L. cbn [fst snd] in L.
      destruct (S r <? need i) eqn:Q.
      + apply Nat.ltb_lt in Q. destruct (IH (q ++ [(i, S r)])) as [out D].
        * rewrite map_app, list_sum_app, app_length. cbn [map list_sum fold_right length]. unfold left_of at 2. cbn [fst snd]. lia.
        * apply Forall_app. split; auto.
        * exists (i :: out). constructor. apply Nat.ltb_lt in Q. now rewrite Q.
      + destruct (IH q) as [out D]; auto; [lia|]. exists (i :: out). constructor. now rewrite Q.
  Qed.

  Definition at_round (r : nat) (l : list nat) : list item2 := map (fun i => (i, r)) l.
  Lemma drains_pass : forall r l B out,
    drains (B ++ at_round (S r) (filter (fun i => S r <? need i) l)) out -> drains (at_round r l ++ B) (l ++ out).
  Proof.
    intro r. induction l as [|i l IH]; intros B out H.
    { cbn in *. now rewrite app_nil_r in H. }
    cbn [filter] in H. unfold at_round in *. cbn [map app]. constructor. destruct (S r <? need i) eqn:Q.
    - rewrite <- app_assoc. apply IH. rewrite <- app_assoc. exact H.
    - apply IH. exact H.
  Qed.
  Definition round_ids (r : nat) : list nat := filter (fun i => r <? need i) (seq 0 k).
  Lemma filter_next : forall r, filter (fun i => S r <? need i) (round_ids r) = round_ids (S r).
  Proof.
    intro r. unfold round_ids. induction (seq 0 k) as [|i l IH]; auto. cbn [filter].
    destruct (Nat.ltb_spec r (need i)); cbn [filter]; destruct (Nat.ltb_spec (S r) (need i)); try lia; rewrite IH; auto.
  Qed.
  Lemma drains_rounds : forall n r, (forall i, i < k -> need i <= r + n) -> drains (at_round r (round_ids r)) (flat_map round_ids (seq r n)).
  Proof.
    induction n as [|n IH]; intros r H.
    - cbn. replace (round_ids r) with (@nil nat); [constructor|]. unfold round_ids. symmetry.
      assert (X : forall l, (forall i, In i l -> i < k) -> filter (fun i => r <? need i) l = []).
      { induction l as [|i l IHl]; intro HL; auto. cbn [filter]. destruct (Nat.ltb_spec r (need i)).
        - specialize (H i (HL i (or_introl eq_refl))). lia.
        - apply IHl. intros. apply HL. now right. }
      apply X. intros i I. apply in_seq in I. lia.
    - cbn [seq flat_map]. rewrite <- (app_nil_r (at_round r (round_ids r))). apply drains_pass. cbn [app]. rewrite filter_next. apply IH.
      intros i Hi. specialize (H i Hi). lia.
  Qed.
  Lemma need_max : forall i, i < k -> need i <= list_max (map needs lens).
  Proof.
    intros i H. pose proof (proj1 (list_max_le (map needs lens) (list_max (map needs lens))) (le_n _)) as F. rewrite Forall_forall in F.
    apply F. apply in_map. now apply nth_In.
  Qed.
  Lemma rounds_eq : rounds lens = flat_map round_ids (seq 0 (list_max (map needs lens))).
  Proof. reflexivity. Qed.
  Lemma drains_all : drains (map (fun i => (i, 0)) (seq 0 k)) (rounds lens).
  Proof.
    rewrite rounds_eq. replace (map (fun i => (i, 0)) (seq 0 k)) with (at_round 0 (round_ids 0)).
    - apply drains_rounds. intros. cbn. now apply need_max.
    - unfold at_round, round_ids. f_equal. induction (seq 0 k) as [|i l IH]; auto. cbn [filter]. rewrite IH.
      replace (0 <? need i) with true; auto. symmetry. apply Nat.ltb_lt. unfold needs. lia.
  Qed.

  Theorem starts_prefix : forall onerr t0 tr s stk, quiet tr ->
    sexec fk (from_beh lens) onerr (s_init t0 (subscribe_all lens)) tr (s, stk) ->
    (exists rest, rounds lens = starts tr ++ rest) /\ (stk = [] -> starts tr = rounds lens).
  Proof.
    intros onerr t0 tr s stk Q X. destruct (finv_exec lens onerr t0 tr _ X) as (ring & P & _ & O). cbn [fst snd] in P. specialize (O Q).
    assert (F : Forall (fun x => snd x < need (fst x)) ring).
    { assert (Z : forall a l, Forall (fun x : item2 => snd x < need (fst x)) (map (fun i => (i, 0)) (seq a l))).
      { intros a l. apply Forall_forall. intros x I. apply in_map_iff in I. destruct I as (i & <- & _). cbn [fst snd]. unfold needs. lia. }
      destruct P; auto; try apply Forall_app; try split; auto;
        match goal with H : ringok _ _ _ ?g |- Forall _ ?g => eapply Forall_impl; [|exact (r_runs _ _ _ _ H)]; cbn beta; intros ? (_ & ?); assumption end. }
    destruct (drains_total _ ring (le_n _) F) as [out D]. split.
    - exists out. eapply drains_det; [apply drains_all|]. auto.
    - intros ->. inversion P; subst; [match goal with H : _ ++ [_] = [] |- _ => destruct (app_cons_not_nil _ _ _ (eq_sym H)) end|]. specialize (O [] (DNil lens)). rewrite app_nil_r in O. eapply drains_det; eauto. apply drains_all.
  Qed.
End Order.

(** ** What the sources push *)
Section Push.
  Context {V : Type}.
  Variable ls : list (list V).
  Notation lens := (map (@length V) ls).
  Notation k := (length ls).
  Lemma nth_lens : forall i, nth i lens 0 = length (nth i ls []).
  Proof. intro i. change 0 with (length (@nil V)). apply map_nth. Qed.

  Lemma pushed_ext : forall st c c', (forall i, c i = c' i) -> pushed_from ls c st = pushed_from ls c' st.
  Proof.
    induction st as [|i st IH]; intros c c' E; auto. cbn. rewrite E. f_equal. apply IH. intro j. destruct (j =? i); auto.
  Qed.
  Definition tell (r i : nat) : list (nat * ev V) := map (pair i) (from_events (nth i ls []) r).
  Lemma pushed_round : forall r l c st, NoDup l -> (forall i, In i l -> c i = r) ->
    pushed_from ls c (l ++ st) = flat_map (tell r) l ++ pushed_from ls (fun j => if existsb (Nat.eqb j) l then S r else c j) st.
  Proof.
    intro r. induction l as [|i l IH]; intros c st N H.
    - cbn. apply pushed_ext. reflexivity.
    - cbn [app pushed_from flat_map]. inversion N; subst. rewrite (H i (or_introl eq_refl)). unfold tell at 1. rewrite <- app_assoc. f_equal.
      rewrite IH; auto.
      + f_equal. apply pushed_ext. intro j. cbn [existsb]. destruct (existsb (Nat.eqb j) l); [now rewrite orb_true_r|].
        rewrite orb_false_r. destruct (Nat.eqb_spec j i); auto. subst. now rewrite (H i (or_introl eq_refl)).
      + intros j I. destruct (Nat.eqb_spec j i); [subst; contradiction|]. apply H. now right.
  Qed.
  Definition round_push (r : nat) : list (nat * ev V) := flat_map (tell r) (round_ids lens r).
  Lemma in_round : forall r i, In i (round_ids lens r) <-> i < k /\ r < needs (length (nth i ls [])).
  Proof.
    intros r i. unfold round_ids. rewrite filter_In, in_seq, Nat.ltb_lt, nth_lens, map_length. split; intros [H1 H2]; split; auto; lia.
  Qed.
  Lemma pushed_rounds : forall n r c, (forall i, In i (round_ids lens r) -> c i = r) ->
    pushed_from ls c (flat_map (round_ids lens) (seq r n)) = flat_map round_push (seq r n).
  Proof.
    induction n as [|n IH]; intros r c H; auto. cbn [seq flat_map]. rewrite (pushed_round r); auto.
    - unfold round_push at 1. f_equal. apply IH. intros i I.
      assert (I' : In i (round_ids lens r)) by (apply in_round; apply in_round in I; lia).
      replace (existsb (Nat.eqb i) (round_ids lens r)) with true; auto. symmetry. apply existsb_exists. exists i. split; auto. apply Nat.eqb_refl.
    - unfold round_ids. apply NoDup_filter. apply seq_NoDup.
  Qed.
  Lemma pushed_all : forall tr, starts tr = rounds lens -> pushed ls tr = flat_map round_push (seq 0 (list_max (map needs lens))).
  Proof. intros tr E. unfold pushed. rewrite E, rounds_eq. apply pushed_rounds. auto. Qed.
End Push.

(** ** Histories in which every source sends values and completes *)
Definition proj {A} (i : nat) (h : hist A) : list (ev A) := flat_map (fun x => if fst x =? i then [snd x] else []) h.
Lemma proj_app : forall A i (a b : hist A), proj i (a ++ b) = proj i a ++ proj i b.
Proof. intros. apply flat_map_app. Qed.
Lemma values_proj : forall A i (h : hist A), values i h = nexts (proj i h).
Proof.
  intros A i h. unfold values, proj, nexts. induction h as [|[j e] h IH]; auto. cbn. rewrite flat_map_app, <- IH. destruct (j =? i); cbn; auto. now rewrite app_nil_r.
Qed.
Lemma completed_proj : forall A i (h : hist A), completed i h = existsb (fun e => match e with Done => true | _ => false end) (proj i h).
Proof.
  intros A i h. unfold completed, proj. induction h as [|[j e] h IH]; auto. cbn. rewrite existsb_app, <- IH. destruct (j =? i); cbn; auto. now rewrite orb_false_r.
Qed.
(** Values, then possibly the end. *)
Definition clean {A} (l : list (ev A)) : Prop := exists a b, l = a ++ b /\ Forall (fun e => is_term e = false) a /\ length b <= 1.
Lemma live_clean : forall A (h : hist A), (forall i, clean (proj i h)) -> live h = h.
Proof.
  intros A h. unfold live.
  assert (X : forall en, (forall i, clean (proj i h)) -> (forall i, In i en -> proj i h = []) -> live_from en h = h).
  { induction h as [|[i e] h IH]; intros en C E; auto. cbn [live_from].
    destruct (existsb (Nat.eqb i) en) eqn:Q.
    - apply existsb_exists in Q. destruct Q as (j & I & J). apply Nat.eqb_eq in J. subst j. specialize (E i I). cbn in E. rewrite Nat.eqb_refl in E. discriminate.
    - f_equal. apply IH.
      + intro j. specialize (C j). unfold proj in C. cbn [flat_map fst snd] in C. destruct (i =? j); [|exact C].
        destruct C as (a & b & Eab & Fa & Lb). fold (proj j h) in *. destruct a as [|x a].
        * cbn in Eab. destruct b as [|y b]; [discriminate|]. injection Eab as -> <-. destruct (proj j h); [|cbn in Lb; lia]. exists [], []. repeat split; auto.
        * injection Eab as -> ->. inversion Fa; subst. exists a, b. auto.
      + intros j I. assert (PJ : In j en \/ (j = i /\ is_term e = true)) by (destruct (is_term e); [destruct I as [<-|I]; auto|auto]).
        destruct PJ as [PJ|(-> & T)].
        * specialize (E j PJ). cbn in E. destruct (i =? j); [discriminate|exact E].
        * specialize (C i). unfold proj in C. cbn [flat_map fst snd] in C. rewrite Nat.eqb_refl in C. fold (proj i h) in C.
          destruct C as (a & b & Eab & Fa & Lb). destruct a as [|x a].
          -- cbn in Eab. subst b. cbn in Lb. fold (proj i h) in Lb. destruct (proj i h); auto. cbn in Lb. lia.
          -- injection Eab as -> _. inversion Fa; subst. congruence. }
  intro C. apply X; auto. intros i [].
Qed.

Lemma nexts_app : forall A (a b : list (ev A)), nexts (a ++ b) = nexts a ++ nexts b.
Proof. intros. apply flat_map_app. Qed.
Definition only_next {A} (l : list (ev A)) : Prop := exists vs, l = map Next vs.
Lemma nexts_map : forall A (vs : list A), nexts (map Next vs) = vs.
Proof. intros. unfold nexts. induction vs as [|v vs IH]; cbn; auto. now rewrite IH. Qed.
Lemma only_nexts : forall A (l : list (ev A)), only_next l -> map Next (nexts l) = l.
Proof. intros A l (vs & ->). now rewrite nexts_map. Qed.

(** Operators that complete when everything in P has completed. *)
Lemma outs_shape : forall A B (out : hist A -> nat -> ev A -> list (ev B)) (P : list nat) past h,
  P <> [] -> h <> [] ->
  (forall p i v, only_next (out p i (Next v))) ->
  (forall q r i, h = q ++ r -> out (past ++ q) i Done = if forallb (fun j => completed j ((past ++ q) ++ [(i, Done)])) P then [Done] else []) ->
  (forall i e, In (i, e) h -> In i P /\ (e = Done \/ exists v, e = Next v)) ->
  (forall i, In i P -> exists vs, proj i (past ++ h) = map Next vs ++ [Done]) ->
  outs_from out past h = map Next (nexts (outs_from out past h)) ++ [Done].
Proof.
  intros A B out P past h NP NH ON OD KD PR.
  assert (LAST : exists h' i, h = h' ++ [(i, Done)] /\ In i P).
  { destruct (exists_last NH) as (h' & (i, e) & E). destruct (KD i e) as (IP & _); [rewrite E; apply in_or_app; right; now left|].
    destruct (PR i IP) as (vs & Ev). rewrite E, app_assoc, proj_app in Ev. cbn in Ev. rewrite Nat.eqb_refl in Ev. apply app_inj_tail in Ev. destruct Ev as (_ & <-). eauto. }
  destruct LAST as (h' & i & -> & IP).
  assert (NC : forall q r, h' = q ++ r -> completed i (past ++ q) = false).
  { intros q r E. destruct (PR i IP) as (vs & Ev). rewrite app_assoc, proj_app in Ev. cbn in Ev. rewrite Nat.eqb_refl in Ev. apply app_inj_tail in Ev. destruct Ev as (Ev & _).
    rewrite E, app_assoc, proj_app in Ev. rewrite completed_proj. 
    assert (Z : existsb (fun e => match e with Done => true | _ => false end) (proj i (past ++ q) ++ proj i r) = false).
    { rewrite Ev. clear. induction vs; auto. }
    rewrite existsb_app in Z. apply orb_false_iff in Z. apply Z. }
  assert (FIRST : forall r q, h' = q ++ r -> only_next (outs_from out (past ++ q) r)).
  { induction r as [|(j, e) r IH]; intros q E; [exists []; reflexivity|]. cbn [outs_from].
    assert (E2 : h' = (q ++ [(j, e)]) ++ r) by (rewrite <- app_assoc; exact E).
    specialize (IH (q ++ [(j, e)]) E2). rewrite app_assoc in IH. destruct IH as (b & Eb). rewrite Eb.
    assert (O1 : only_next (out (past ++ q) j e)).
    { destruct (KD j e) as (_ & [->|(v & ->)]); [rewrite E; apply in_or_app; left; apply in_or_app; right; now left| |apply ON].
      rewrite (OD q ((j, Done) :: r ++ [(i, Done)])).
      - replace (forallb _ P) with false; [exists []; reflexivity|]. symmetry. apply not_true_iff_false. intro T. rewrite forallb_forall in T. specialize (T i IP).
        rewrite <- app_assoc in T. rewrite (NC (q ++ [(j, Done)]) r E2) in T. discriminate.
      - rewrite E. now rewrite <- app_assoc. }
    destruct O1 as (a & Ea). rewrite Ea. exists (a ++ b). now rewrite map_app. }
  rewrite outs_from_app. specialize (FIRST h' [] eq_refl). rewrite app_nil_r in FIRST. cbn [outs_from]. rewrite (OD h' [(i, Done)] i eq_refl).
  assert (FIN : forallb (fun j => completed j ((past ++ h') ++ [(i, Done)])) P = true).
  { apply forallb_forall. intros j J. rewrite <- app_assoc. destruct (PR j J) as (vs & Ev). rewrite completed_proj, Ev, existsb_app. cbn. now rewrite orb_true_r. }
  rewrite FIN. cbn [app]. rewrite nexts_app. cbn. rewrite app_nil_r. rewrite only_nexts by auto. reflexivity.
Qed.

(** ** The projections of the complete round-robin history *)
Lemma list_max_cons : forall x l, list_max (x :: l) = Nat.max x (list_max l).
Proof. reflexivity. Qed.
Lemma firstn_S_nth : forall X (l : list X) r v, nth_error l r = Some v -> firstn (S r) l = firstn r l ++ [v].
Proof. induction l as [|x l IH]; intros [|r] v H; cbn in *; try discriminate; [now injection H as ->|]. f_equal. now apply IH. Qed.
Lemma flat_map_ext_in : forall X Y (f g : X -> list Y) l, (forall x, In x l -> f x = g x) -> flat_map f l = flat_map g l.
Proof. induction l as [|x l IH]; intro H; auto. cbn. rewrite (H x (or_introl eq_refl)), IH; auto. intros. apply H. now right. Qed.
Section Full.
  Context {V : Type}.
  Variable ls : list (list V).
  Notation lens := (map (@length V) ls).
  Notation k := (length ls).
  Notation R := (list_max (map needs lens)).
  Notation full := (flat_map (round_push ls) (seq 0 R)).

  Lemma proj_tell : forall r i j, proj j (tell ls r i) = if i =? j then from_events (nth i ls []) r else [].
  Proof.
    intros r i j. unfold tell. generalize (from_events (nth i ls []) r). intro l.
    induction l as [|e l IH]; cbn; [now destruct (i =? j)|]. destruct (i =? j) eqn:Q; cbn; [|exact IH]. f_equal. exact IH.
  Qed.
  Lemma proj_round : forall r i, proj i (round_push ls r) = if (i <? k) && (r <? needs (length (nth i ls []))) then from_events (nth i ls []) r else [].
  Proof.
    intros r i. unfold round_push.
    assert (X : forall l, NoDup l -> proj i (flat_map (tell ls r) l) = if existsb (Nat.eqb i) l then from_events (nth i ls []) r else []).
    { induction l as [|j l IH]; intro N; auto. inversion N; subst. cbn [flat_map existsb]. rewrite proj_app, proj_tell, IH by auto. rewrite (Nat.eqb_sym i j).
      destruct (Nat.eqb_spec j i); cbn [orb]; auto. subst j. replace (existsb (Nat.eqb i) l) with false; [now rewrite app_nil_r|].
      symmetry. apply not_true_iff_false. intro T. apply existsb_exists in T. destruct T as (x & I & E). apply Nat.eqb_eq in E. subst x. contradiction. }
    rewrite X by (unfold round_ids; apply NoDup_filter, seq_NoDup).
    replace (existsb (Nat.eqb i) (round_ids lens r)) with ((i <? k) && (r <? needs (length (nth i ls [])))); auto.
    apply eq_true_iff_eq. rewrite andb_true_iff, !Nat.ltb_lt, existsb_exists. split.
    - intro H. exists i. rewrite Nat.eqb_refl, in_round. auto.
    - intros (x & I & E). apply Nat.eqb_eq in E. subst x. now apply in_round in I.
  Qed.
  (** What a source has said in its first n runs. *)
  Definition said (xs : list V) (n : nat) : list (ev V) :=
    map Next (firstn n xs) ++ (if needs (length xs) <=? n then [Done] else []).
  Lemma said_S : forall xs r, said xs (S r) = said xs r ++ (if r <? needs (length xs) then from_events xs r else []).
  Proof.
    intros xs r. unfold said, from_events, needs. destruct (Nat.ltb_spec r (Nat.max 1 (length xs))) as [L|G].
    - rewrite (proj2 (Nat.leb_gt (Nat.max 1 (length xs)) r)) by lia. rewrite app_nil_r.
      destruct (nth_error xs r) as [v|] eqn:Q.
      + assert (r < length xs) by (apply nth_error_Some; congruence). rewrite (firstn_S_nth _ xs r v Q), map_app, <- app_assoc. f_equal. cbn [map app]. f_equal.
        destruct (Nat.leb_spec (Nat.max 1 (length xs)) (S r)), (Nat.ltb_spec (S r) (length xs)); auto; lia.
      + apply nth_error_None in Q. rewrite !firstn_all2 by lia. rewrite (proj2 (Nat.leb_le _ _)) by lia. reflexivity.
    - rewrite !firstn_all2 by lia. rewrite !(proj2 (Nat.leb_le _ _)) by lia. now rewrite app_nil_r.
  Qed.
  Lemma proj_rounds : forall n i, i < k -> proj i (flat_map (round_push ls) (seq 0 n)) = said (nth i ls []) n.
  Proof.
    induction n as [|n IH]; intros i L.
    - unfold said, needs. cbn [seq flat_map firstn map]. rewrite (proj2 (Nat.leb_gt _ _)) by lia. reflexivity.
    - rewrite seq_S, flat_map_app, proj_app, IH, said_S by auto. f_equal. cbn [flat_map plus]. rewrite app_nil_r, proj_round.
      apply Nat.ltb_lt in L. rewrite L. reflexivity.
  Qed.
  Lemma proj_full : forall i, i < k -> proj i full = map Next (nth i ls []) ++ [Done].
  Proof.
    intros i L. rewrite proj_rounds by auto. unfold said.
    assert (N : needs (length (nth i ls [])) <= R).
    { pose proof (need_max lens i) as H. rewrite map_length, nth_lens in H. auto. }
    rewrite (proj2 (Nat.leb_le _ _)) by auto. f_equal. rewrite firstn_all2; auto. unfold needs in *. lia.
  Qed.
  Lemma full_ids : forall n i e, In (i, e) (flat_map (round_push ls) (seq 0 n)) -> i < k.
  Proof.
    intros n i e H. apply in_flat_map in H. destruct H as (r & _ & H). unfold round_push in H. apply in_flat_map in H. destruct H as (j & J & H).
    apply in_round in J. unfold tell in H. apply in_map_iff in H. destruct H as (x & E & _). injection E as -> _. tauto.
  Qed.
  Lemma full_evs : forall n i e, In (i, e) (flat_map (round_push ls) (seq 0 n)) -> e = Done \/ exists v, e = Next v.
  Proof.
    intros n i e H. apply in_flat_map in H. destruct H as (r & _ & H). unfold round_push in H. apply in_flat_map in H. destruct H as (j & J & H).
    unfold tell in H. apply in_map_iff in H. destruct H as (x & E & I). injection E as _ <-. unfold from_events in I.
    destruct (nth_error (nth j ls []) r); [destruct I as [<-|I]; eauto; destruct (S r <? _); [destruct I|destruct I as [<-|[]]; auto]|destruct I as [<-|[]]; auto].
  Qed.
  Lemma full_some : k > 0 -> full <> [].
  Proof. intros H E. pose proof (proj_full 0 H) as P. rewrite E in P. cbn in P. destruct (nth 0 ls []); discriminate. Qed.

  (** The values, in the order of the history. *)
  Lemma nexts_tell : forall r i, r < needs (length (nth i ls [])) -> nexts (map snd (tell ls r i)) = match nth_error (nth i ls []) r with Some v => [v] | None => [] end.
  Proof.
    intros r i L. unfold tell. rewrite map_map. cbn [snd]. rewrite map_id. unfold from_events. destruct (nth_error (nth i ls []) r); auto. destruct (S r <? length (nth i ls [])); reflexivity.
  Qed.
  Lemma nexts_round : forall r, nexts (map snd (round_push ls r)) = flat_map (fun l => match nth_error l r with Some v => [v] | None => [] end) ls.
  Proof.
    intro r. unfold round_push, round_ids. rewrite map_length.
    assert (X : forall l, nexts (map snd (flat_map (tell ls r) (filter (fun i => r <? needs (nth i lens 0)) l))) =
                          flat_map (fun i => match nth_error (nth i ls []) r with Some v => [v] | None => [] end) l).
    { induction l as [|i l IH]; auto. cbn [filter flat_map]. rewrite nth_lens. destruct (Nat.ltb_spec r (needs (length (nth i ls [])))) as [L|G].
      - cbn [flat_map]. rewrite map_app, nexts_app, IH, nexts_tell by auto. reflexivity.
      - rewrite IH. replace (nth_error (nth i ls []) r) with (@None V); auto. symmetry. apply nth_error_None. unfold needs in G. lia. }
    rewrite X. clear X.
    assert (Y : forall a (l : list (list V)), flat_map (fun i => match nth_error (nth (i - a) l []) r with Some v => [v] | None => [] end) (seq a (length l)) =
                            flat_map (fun l => match nth_error l r with Some v => [v] | None => [] end) l).
    { intros a l. revert a. induction l as [|x l IH]; intro a; auto. cbn [length seq flat_map]. rewrite Nat.sub_diag. cbn [nth]. f_equal.
      rewrite <- (IH (S a)). apply flat_map_ext_in. intros i I. apply in_seq in I. replace (i - a) with (S (i - S a)) by lia. reflexivity. }
    rewrite <- (Y 0 ls). apply flat_map_ext. intro i. now rewrite Nat.sub_0_r.
  Qed.
  Lemma nexts_full : nexts (map snd full) = interleaved ls.
  Proof.
    assert (X : forall n, nexts (map snd (flat_map (round_push ls) (seq 0 n))) =
      flat_map (fun r => flat_map (fun l => match nth_error l r with Some v => [v] | None => [] end) ls) (seq 0 n)).
    { induction n as [|n IH]; auto. rewrite seq_S, !flat_map_app, map_app, nexts_app, IH. cbn [flat_map plus]. now rewrite !app_nil_r, nexts_round. }
    rewrite X. unfold interleaved.
    assert (M : forall n, list_max lens <= n -> flat_map (fun r => flat_map (fun l => match nth_error l r with Some v => [v] | None => [] end) ls) (seq 0 n) =
                flat_map (fun r => flat_map (fun l => match nth_error l r with Some v => [v] | None => [] end) ls) (seq 0 (list_max lens))).
    { intros n L. replace n with (list_max lens + (n - list_max lens)) by lia. rewrite seq_app, flat_map_app.
      replace (flat_map _ (seq (0 + _) _)) with (@nil V); [now rewrite app_nil_r|]. symmetry.
      assert (Z : forall l, (forall r, In r l -> list_max lens <= r) -> flat_map (fun r => flat_map (fun l => match nth_error l r with Some v => [v] | None => [] end) ls) l = []).
      { induction l as [|r l IH]; intro H; auto. cbn. rewrite IH by (intros; apply H; now right). rewrite app_nil_r.
        specialize (H r (or_introl eq_refl)). clear -H. induction ls as [|x t IH]; auto. cbn [map flat_map] in *. rewrite list_max_cons in H. rewrite IH by lia.
        replace (nth_error x r) with (@None V); auto. symmetry. apply nth_error_None. lia. }
      apply Z. intros r I. apply in_seq in I. lia. }
    apply M. clear. induction ls as [|x t IH]; auto. cbn [map]. rewrite !list_max_cons. unfold needs at 1. lia.
  Qed.
End Full.

(** ** merge_with *)
Lemma merge_only_next : forall V p i (v : unit + V), only_next (merge_out p i (Next v)).
Proof. intros V p i [u|v]; cbn; [exists []; auto|]. destruct (i =? 0); [exists []|exists [v]]; auto. Qed.

Section Merge.
  Context {V : Type}.
  Variable ls : list (list V).
  Variable tr : list tev.
  Hypothesis ALL : starts tr = rounds (map (@length V) ls).
  Notation k := (length ls).
  Definition opens : hist (unit + V) := repeat (0, Next (inl tt)) k.
  Definition inners : hist (unit + V) := map (fun x => (S (fst x), inner (snd x))) (pushed ls tr).

  Lemma opened_opens : opened opens = k.
  Proof. unfold opens, opened. induction k as [|n IH]; auto. cbn in *. now rewrite IH. Qed.
  Lemma opened_inner : forall h : list (nat * ev V), opened (map (fun x => (S (fst x), inner (snd x))) h) = 0.
  Proof. unfold opened. induction h as [|[i e] h IH]; auto. Qed.
  Lemma proj_inner : forall i h, proj (S i) (map (fun x : nat * ev V => (S (fst x), inner (snd x))) h) = map inner (proj i h).
  Proof. induction h as [|[j e] h IH]; auto. unfold proj in *. cbn [map flat_map fst snd]. rewrite map_app, IH. cbn. now destruct (j =? i). Qed.
  Lemma proj_inner0 : forall h, proj 0 (map (fun x : nat * ev V => (S (fst x), inner (snd x))) h) = [].
  Proof. induction h as [|[j e] h IH]; auto. Qed.
  Lemma proj_opens : forall i, proj i opens = if i =? 0 then repeat (Next (inl tt)) k else [].
  Proof. intro i. unfold opens, proj. induction k as [|n IH]; cbn; [now destruct (i =? 0)|]. rewrite IH. now destruct i. Qed.
  Lemma proj_merge : forall i, i <= k -> exists vs, proj i (merge_calls ls tr) = map Next vs ++ [Done].
  Proof.
    intros i L. unfold merge_calls. fold opens inners. rewrite !proj_app, proj_opens. destruct i as [|i].
    - exists (repeat (inl tt) k). unfold inners. rewrite proj_inner0. cbn. f_equal. clear. induction k as [|n IH]; auto. cbn. now rewrite IH.
    - exists (map inr (nth i ls [])). unfold inners. rewrite proj_inner, pushed_all, proj_full by (auto; lia). cbn. rewrite map_app, !map_map. reflexivity.
  Qed.
  Lemma merge_ids : forall i e, In (i, e) (merge_calls ls tr) -> i <= k /\ (e = Done \/ exists v, e = Next v).
  Proof.
    intros i e H. unfold merge_calls in H. apply in_app_or in H. destruct H as [H|H].
    - apply repeat_spec in H. injection H as -> ->. split; [lia|eauto].
    - cbn in H. destruct H as [H|H]; [injection H as <- <-; split; [lia|auto]|]. apply in_map_iff in H. destruct H as ((j, x) & E & I). cbn in E. injection E as <- <-.
      rewrite pushed_all in I by auto. pose proof (full_ids ls _ _ _ I). pose proof (full_evs ls _ _ _ I) as [->|(v & ->)]; cbn; split; auto; try lia. eauto.
  Qed.
  Lemma merge_live : live (merge_calls ls tr) = merge_calls ls tr.
  Proof.
    apply live_clean. intro i. destruct (Nat.le_gt_cases i k) as [L|G].
    - destruct (proj_merge i L) as (vs & ->). exists (map Next vs), [Done]. repeat split; auto. apply Forall_forall. intros x I. apply in_map_iff in I. now destruct I as (v & <- & _).
    - exists [], []. repeat split; auto. 
      assert (X : forall h : hist (unit + V), (forall j e, In (j, e) h -> j <= k) -> proj i h = []).
      { induction h as [|(j, e) h IH]; intro H; auto. unfold proj in *. cbn. destruct (Nat.eqb_spec j i); [specialize (H j e (or_introl eq_refl)); lia|]. apply IH. intros. eapply H. right. eauto. }
      apply X. intros j e H. now apply merge_ids in H.
  Qed.
  Lemma opens_nothing : forall past, outs_from merge_out past opens = [].
  Proof. unfold opens. induction k as [|n IH]; intro past; auto. cbn. apply IH. Qed.
  Lemma opened_prefix : forall q r : hist (unit + V), (0, Done) :: inners = q ++ r -> opened q = 0.
  Proof.
    intros q r E. assert (O : opened ((0, Done) :: inners) = 0) by (exact (opened_inner (pushed ls tr))).
    rewrite E, opened_app in O. lia.
  Qed.
  Theorem merge_outs : outs merge_out (merge_calls ls tr) = map Next (interleaved ls) ++ [Done].
  Proof.
    assert (NX : nexts (outs merge_out (merge_calls ls tr)) = interleaved ls).
    { rewrite C32_merge_values, merge_live. unfold merge_calls. rewrite flat_map_app.
      replace (flat_map _ (repeat _ k)) with (@nil V) by (clear; induction k; auto). cbn [app flat_map].
      rewrite <- nexts_full, <- (pushed_all ls tr) by auto. generalize (pushed ls tr). intro h. unfold nexts. induction h as [|(i, e) h IH]; auto. cbn. rewrite IH.
      destruct e; reflexivity. }
    rewrite <- NX. unfold outs. rewrite merge_live. unfold merge_calls. fold opens inners. rewrite outs_from_app, opens_nothing. cbn [app].
    apply (outs_shape _ _ merge_out (seq 0 (S k)) opens ((0, Done) :: inners)); try discriminate.
    - apply merge_only_next.
    - intros q r i E. unfold merge_out. rewrite !opened_app, opened_opens, (opened_prefix q r E). change (opened [(i, Done)]) with (opened (V := V) [(i, Done)]).
      replace (opened [(i, Done)]) with 0 by (unfold opened; cbn; now rewrite andb_false_r). now rewrite !Nat.add_0_r.
    - intros i e H. destruct (merge_ids i e) as (L & K).
      + unfold merge_calls. fold opens inners. apply in_or_app. right. exact H.
      + split; auto. apply in_seq. lia.
    - intros i H. apply in_seq in H. apply (proj_merge i). lia.
  Qed.
End Merge.

(** Calls made one after the other. *)
Lemma merge_seq_full : forall V (D : machine V) d0 h g, lawful D -> seq_run (merge_op V) D (fun _ => []) (g_init _ D d0) h = Some g ->
  g_lock g = false /\ g_down g = mrun D d0 (outs merge_out h) /\ (mdisp D (g_down g) = false -> ms_subs (g_op g) = opened (live h)).
Proof.
  intros V D d0 h g L G. set (op := merge_op V) in *.
  assert (ST : forall s ow d lh i e, cinv op (fun h => S (opened h)) ms_needed (@merge_R V) s ow lh -> mdisp D d = false -> mo_ready op s i = true ->
    exists s' own', run1 op D (fun _ => []) 20 (GS false s ow d) i e P0 =
        Some (GS false s' own' (mrun D d (if endedb i lh then [] else merge_out lh i e))) /\
      (mdisp D (mrun D d (if endedb i lh then [] else merge_out lh i e)) = false ->
       cinv op (fun h => S (opened h)) ms_needed (@merge_R V) s' own' (lh ++ if endedb i lh then [] else [(i, e)]))).
  { apply (count_step op D merge_out (fun h => S (opened h)) ms_needed (@merge_R V) (fun e _ => match e with Next (inr v) => Next v | Next (inl _) => Done | Err x => Err x | Done => Done end) L); auto.
    - intros s h' i [E _] RD. cbn in RD. apply Nat.leb_le in RD. lia.
    - intros s h' i [u|v] [E1 E2] Li EN.
      + left. cbn. destruct (Nat.eqb_spec i 0) as [->|NE].
        * eexists. split; [reflexivity|]. split; auto. rewrite opened_app, opened_next. cbn. split; [split|].
          -- cbn. rewrite opened_app, opened_next. cbn. lia.
          -- intros j Hj. rewrite opened_app, opened_next in Hj. cbn in Hj. rewrite completed_app, completed_next, E2 by lia. reflexivity.
          -- right. repeat split; try lia. apply E2. lia.
        * eexists. split; [reflexivity|]. split; auto. apply Nat.eqb_neq in NE. split; [split|].
          -- rewrite opened_app, opened_next, NE. lia.
          -- intros j Hj. rewrite opened_app, opened_next, NE in Hj. rewrite completed_app, completed_next, E2 by lia. reflexivity.
          -- left. rewrite opened_app, opened_next, NE. split; auto; lia.
      + destruct (Nat.eqb_spec i 0) as [->|NE].
        * left. eexists. split; [reflexivity|]. split; auto. split; [split|].
          -- rewrite opened_app, opened_val. lia.
          -- intros j Hj. rewrite opened_app, opened_val in Hj. rewrite completed_app, completed_next, E2 by lia. reflexivity.
          -- left. rewrite opened_app, opened_val. split; auto; lia.
        * right. cbn. apply Nat.eqb_neq in NE. rewrite NE. split; auto. do 3 eexists. split; [reflexivity|]. cbn. split; auto. split; [split|].
          -- rewrite opened_app, opened_val. lia.
          -- intros j Hj. rewrite opened_app, opened_val in Hj. rewrite completed_app, completed_next, E2 by lia. reflexivity.
          -- rewrite opened_app, opened_val. split; auto; lia.
    - intros s i. exists (MergeS (ms_needed s - 1) (ms_subs s)). cbn. split; auto. split; auto.
      intros h' [E1 E2] Li. split; cbn.
      + rewrite opened_app, opened_done. lia.
      + intros j Hj. rewrite opened_app, opened_done in Hj. rewrite completed_app, E2 by lia. cbn.
        rewrite orb_false_r, andb_true_r. apply Nat.eqb_neq. lia.
    - intros h' i. unfold merge_out. rewrite opened_app, opened_done, Nat.add_0_r. split; reflexivity. }
  assert (IN : cinv op (fun h => S (opened h)) ms_needed (@merge_R V) (mo_init op) [] []).
  { apply cinv_init; auto. split; auto. }
  destruct (seq_inv op D L d0 _ _ IN ST h g G) as (E1 & E2 & E3). split; auto. split; auto. intro M. destruct (E3 M) as (_ & _ & (E4 & _)). exact E4.
Qed.
Lemma merge_seq_inv : forall V (D : machine V) d0 h g, lawful D -> seq_run (merge_op V) D (fun _ => []) (g_init _ D d0) h = Some g ->
  g_lock g = false /\ g_down g = mrun D d0 (outs merge_out h).
Proof. intros V D d0 h g L G. destruct (merge_seq_full V D d0 h g L G) as (E1 & E2 & _). auto. Qed.
Lemma merge_call : forall V (D : machine V) s own d i e, i <= ms_subs s ->
  exists s' own' d', run1 (merge_op V) D (fun _ => []) 20 (@GS _ _ (merge_op V) D false s own d) i e P0 = Some (@GS _ _ (merge_op V) D false s' own' d') /\ ms_subs s <= ms_subs s' /\
    (i = 0 -> e = Next (inl tt) -> mdisp D d = false -> existsb (Nat.eqb 0) own = false -> ms_subs s' = S (ms_subs s) /\ own' = own /\ d' = d).
Proof.
  intros V D s own d i e L. assert (RD : mo_ready (merge_op V) s i = true) by (cbn; now apply Nat.leb_le).
  destruct (gate (merge_op V) D (@GS _ _ (merge_op V) D false s own d) i false) eqn:G.
  - rewrite r_gate by auto. exists s, own, d. split; auto. split; auto. intros -> -> M O. unfold gate, owned in G. cbn [mo_own merge_op mo_gate g_own g_down g_op] in G. rewrite M, O in G. discriminate.
  - rewrite r_pass by auto. destruct e as [[u|v]|x|].
    + destruct (i =? 0) eqn:Z.
      * erewrite r_ret by (cbn; rewrite Z; reflexivity). do 3 eexists. split; [reflexivity|]. cbn. split; auto.
      * erewrite r_ret by (cbn; rewrite Z; reflexivity). do 3 eexists. split; [reflexivity|]. cbn. split; auto. intros ->. discriminate.
    + destruct (i =? 0) eqn:Z.
      * erewrite r_ret by (cbn; rewrite Z; reflexivity). do 3 eexists. split; [reflexivity|]. cbn. split; auto. discriminate.
      * erewrite r_go by (cbn; rewrite Z; reflexivity). erewrite r_lock by reflexivity. do 3 eexists. split; [reflexivity|]. split; auto. discriminate.
    + erewrite r_go by reflexivity. erewrite r_lock by reflexivity. do 3 eexists. split; [reflexivity|]. split; auto. discriminate.
    + destruct (ms_needed s =? 1) eqn:Z.
      * erewrite r_go by (cbn; rewrite Z; reflexivity). erewrite r_lock by reflexivity. do 3 eexists. split; [reflexivity|]. split; auto. discriminate.
      * erewrite r_ret by (cbn; rewrite Z; reflexivity). do 3 eexists. split; [reflexivity|]. split; auto. discriminate.
Qed.
Lemma merge_seq_opens : forall V (D : machine V) n s d, mdisp D d = false ->
  exists s', seq_run (merge_op V) D (fun _ => []) (@GS _ _ (merge_op V) D false s [] d) (repeat (0, Next (inl tt)) n) = Some (@GS _ _ (merge_op V) D false s' [] d) /\ ms_subs s' = n + ms_subs s.
Proof.
  induction n as [|n IH]; intros s d M; [exists s; auto|]. cbn [repeat seq_run].
  destruct (merge_call V D s [] d 0 (Next (inl tt)) ltac:(lia)) as (s' & o' & d' & E & _ & F). destruct (F eq_refl eq_refl M eq_refl) as (S1 & -> & ->).
  rewrite E. destruct (IH s' d M) as (s2 & E2 & S2). exists s2. split; auto. lia.
Qed.
Lemma merge_seq_ids : forall V (D : machine V) h s own d, (forall i e, In (i, e) h -> i <= ms_subs s) ->
  exists g, seq_run (merge_op V) D (fun _ => []) (@GS _ _ (merge_op V) D false s own d) h = Some g.
Proof.
  induction h as [|(i, e) h IH]; intros s own d H; [cbn; eauto|]. cbn [seq_run].
  destruct (merge_call V D s own d i e) as (s' & o' & d' & E & S1 & _); [eapply H; now left|]. rewrite E. apply IH.
  intros j x I. specialize (H j x (or_intror I)). lia.
Qed.
Theorem merge_with_run : forall V (ls : list (list V)) tr (D : machine V) d0, lawful D -> mdisp D d0 = false ->
  starts tr = rounds (map (@length V) ls) ->
  exists g, seq_run (merge_op V) D (fun _ => []) (g_init _ D d0) (merge_calls ls tr) = Some g /\
    g_lock g = false /\ g_down g = mrun D d0 (map Next (interleaved ls) ++ [Done]).
Proof.
  intros V ls tr D d0 L M ALL.
  assert (EX : exists g, seq_run (merge_op V) D (fun _ => []) (g_init _ D d0) (merge_calls ls tr) = Some g).
  { unfold merge_calls. rewrite seq_run_app. destruct (merge_seq_opens V D (length ls) (mo_init (merge_op V)) d0 M) as (s' & E & S1).
    unfold g_init. rewrite E. apply merge_seq_ids. intros i e H. destruct (merge_ids ls tr ALL i e) as (LE & _).
    - unfold merge_calls. apply in_or_app. now right.
    - lia. }
  destruct EX as (g & G). exists g. split; auto. destruct (merge_seq_inv V D d0 _ g L G) as (E1 & E2). split; auto. rewrite E2, merge_outs; auto.
Qed.

(** ** zip, combine_latest, with_latest_from *)
Section Lifted.
  Context {V : Type}.
  Variable main : list V.
  Variable others : list (list V).
  Variable tr : list tev.
  Notation ls := (others ++ [main]).
  Hypothesis ALL : starts tr = rounds (map (@length V) ls).
  Notation n := (length others).
  Notation h := (lifted_calls main others tr).
  (** Number of the source that operator port j listens to. *)
  Definition task_of (j : nat) : nat := match j with 0 => n | S i => i end.
  Definition list_of (j : nat) : list V := nth j (main :: others) [].

  Lemma len_ls : length ls = S n.
  Proof. rewrite app_length. cbn. lia. Qed.
  Lemma list_task : forall j, j <= n -> nth (task_of j) ls [] = list_of j.
  Proof. intros [|i] L; unfold list_of; cbn; [now rewrite app_nth2, Nat.sub_diag by lia|]. now rewrite app_nth1 by lia. Qed.
  Lemma proj_lifted : forall j (g : hist V), j <= n -> (forall i e, In (i, e) g -> i <= n) -> proj j (lifted (S n) g) = proj (task_of j) g.
  Proof.
    intros j g L. induction g as [|(i, e) g IH]; intro H; auto. unfold proj, lifted in *. cbn [map flat_map fst snd]. rewrite IH by (intros; eapply H; right; eauto). f_equal.
    specialize (H i e (or_introl eq_refl)). destruct (Nat.ltb_spec (S i) (S n)); destruct j as [|j]; cbn [task_of]; unfold task_of.
    - destruct (Nat.eqb_spec i n), (Nat.eqb_spec (S i) 0); auto; lia.
    - reflexivity.
    - destruct (Nat.eqb_spec i n), (Nat.eqb_spec 0 0); auto; lia.
    - destruct (Nat.eqb_spec 0 (S j)), (Nat.eqb_spec i j); auto; lia.
  Qed.
  Lemma pushed_ids : forall i e, In (i, e) (pushed ls tr) -> i <= n.
  Proof. intros i e H. rewrite pushed_all in H by auto. apply full_ids in H. rewrite len_ls in H. lia. Qed.
  Lemma proj_calls : forall j, j <= n -> proj j h = map Next (list_of j) ++ [Done].
  Proof.
    intros j L. unfold lifted_calls. rewrite proj_lifted by (auto; apply pushed_ids). rewrite pushed_all, proj_full by (auto; rewrite len_ls; destruct j; cbn; lia).
    now rewrite list_task.
  Qed.
  Lemma calls_ids : forall i e, In (i, e) h -> i <= n /\ (e = Done \/ exists v, e = Next v).
  Proof.
    intros i e H. unfold lifted_calls, lifted in H. apply in_map_iff in H. destruct H as ((j, x) & E & I). cbn [fst snd] in E. injection E as <- <-.
    split; [destruct (Nat.ltb_spec (S j) (S n)); lia|]. rewrite pushed_all in I by auto. now apply full_evs in I.
  Qed.
  Lemma proj_none : forall i (g : hist V), (forall j e, In (j, e) g -> j <> i) -> proj i g = [].
  Proof. induction g as [|(j, e) g IH]; intro H; auto. unfold proj in *. cbn. destruct (Nat.eqb_spec j i); [specialize (H j e (or_introl eq_refl)); lia|]. apply IH. intros. eapply H. right. eauto. Qed.
  Lemma calls_live : live h = h.
  Proof.
    apply live_clean. intro i. destruct (Nat.le_gt_cases i n) as [L|G].
    - rewrite proj_calls by auto. eexists (map Next _), [Done]. repeat split; auto. apply Forall_forall. intros x I. apply in_map_iff in I. now destruct I as (v & <- & _).
    - exists [], []. repeat split; auto. apply proj_none. intros j e H. apply calls_ids in H. lia.
  Qed.
  Lemma values_calls : forall j, j <= n -> values j h = list_of j.
  Proof. intros j L. rewrite values_proj, proj_calls, nexts_app, nexts_map by auto. cbn. now rewrite app_nil_r. Qed.
  Lemma calls_some : h <> [].
  Proof. intro E. pose proof (proj_calls 0 ltac:(lia)) as P. rewrite E in P. destruct (list_of 0); discriminate. Qed.
  Lemma calls_fit : Forall (fun x => fst x < S n) h.
  Proof. apply Forall_forall. intros (i, e) H. apply calls_ids in H. cbn. lia. Qed.

  (** zip *)
  Lemma map_ports : forall X (f : list V -> X), map (fun j => f (list_of j)) (seq 0 (S n)) = map f (main :: others).
  Proof.
    intros X f. unfold list_of. change (S n) with (length (main :: others)). generalize (main :: others). intro l.
    assert (Y : forall a, map (fun j => f (nth (j - a) l [])) (seq a (length l)) = map f l).
    { induction l as [|x l IH]; intro a; auto. cbn [length seq map]. rewrite Nat.sub_diag. cbn [nth]. f_equal. rewrite <- (IH (S a)).
      apply map_ext_in. intros j I. apply in_seq in I. now replace (j - a) with (S (j - S a)) by lia. }
    rewrite <- (Y 0). apply map_ext. intro j. now rewrite Nat.sub_0_r.
  Qed.
  Lemma row_calls : forall r, row (S n) h r = all_of (map (fun l => nth_error l r) (main :: others)).
  Proof.
    intro r. unfold row. rewrite <- (map_ports _ (fun l => nth_error l r)). f_equal. apply map_ext_in. intros j I. apply in_seq in I. now rewrite values_calls by lia.
  Qed.
  Lemma min_attained : forall l x, In (fold_left Nat.min l x) (x :: l).
  Proof.
    induction l as [|y l IH]; intro x; cbn; auto. destruct (IH (Nat.min x y)) as [E|E]; auto. rewrite <- E.
    destruct (Nat.min_spec x y) as [(_ & ->)|(_ & ->)]; auto.
  Qed.
  Lemma rows_attained : exists j, j <= n /\ rows (S n) h = length (list_of j).
  Proof.
    assert (X : In (rows (S n) h) (map (fun j => length (values j h)) (seq 0 (S n)))).
    { unfold rows. cbn [seq map]. apply min_attained. }
    apply in_map_iff in X. destruct X as (j & E & I). apply in_seq in I. exists j. rewrite values_calls in E by lia. split; [lia|auto].
  Qed.
  Lemma all_of_none : forall X (l : list (option X)), In None l -> all_of l = None.
  Proof. induction l as [|o l IH]; intros []; cbn; [subst; auto|]. rewrite IH by auto. now destruct o. Qed.
  Lemma zip_values : forall B (g : list V -> B), nexts (outs (zip_out (S n) (fun l => Ok (g l))) h) = map g (zipped_rows (main :: others)).
  Proof.
    intros B g. pose proof (C35_zip_values V B (S n) g h calls_fit) as Z. rewrite calls_live in Z.
    destruct rows_attained as (j & Lj & Ej).
    set (M := list_max (map (@length V) (main :: others))).
    assert (LM : rows (S n) h <= M).
    { rewrite Ej. unfold M. pose proof (proj1 (list_max_le (map (@length V) (main :: others)) M) (le_n _)) as F. rewrite Forall_forall in F. apply F.
      apply in_map. unfold list_of. apply nth_In. cbn. lia. }
    unfold zipped_rows. fold M.
    assert (LO : forall m, m <= rows (S n) h -> forall X : list B, map Some X = map (fun k => option_map g (row (S n) h k)) (seq 0 m) ->
       X = map g (flat_map (fun k => match all_of (map (fun l => nth_error l k) (main :: others)) with Some r => [r] | None => [] end) (seq 0 m))).
    { induction m as [|m IH]; intros LL X E.
      - destruct X; auto. discriminate.
      - rewrite seq_S in *. rewrite map_app in E. destruct X as [|x X] using rev_ind.
        + destruct (map _ (seq 0 m)); discriminate.
        + rewrite map_app in E. apply app_inj_tail in E. destruct E as (E1 & E2). rewrite flat_map_app, map_app, <- (IH ltac:(lia) X E1). f_equal.
          cbn [flat_map plus] in *. rewrite row_calls in E2. destruct (all_of _); cbn in *; [|discriminate]. now injection E2 as ->. }
    rewrite (LO _ (le_n _) _ Z).
    replace M with (rows (S n) h + (M - rows (S n) h)) by lia. rewrite seq_app, flat_map_app. 
    replace (flat_map _ (seq (0 + _) _)) with (@nil (list V)); [now rewrite app_nil_r|]. symmetry.
    assert (NN : forall l, (forall r, In r l -> rows (S n) h <= r) -> flat_map (fun k => match all_of (map (fun l => nth_error l k) (main :: others)) with Some r => [r] | None => [] end) l = []).
    { induction l as [|r l IH]; intro H; auto. cbn [flat_map]. rewrite IH by (intros; apply H; now right). rewrite app_nil_r.
      rewrite all_of_none; auto. apply in_map_iff. exists (list_of j). split; [|unfold list_of; apply nth_In; cbn; lia].
      apply nth_error_None. rewrite <- Ej. apply H. now left. }
    apply NN. intros r I. apply in_seq in I. lia.
  Qed.
  Theorem zip_outs : forall B (g : list V -> B), outs (zip_out (S n) (fun l => Ok (g l))) h = map Next (map g (zipped_rows (main :: others))) ++ [Done].
  Proof.
    intros B g. rewrite <- zip_values. unfold outs. rewrite calls_live.
    apply (outs_shape _ _ (zip_out (S n) (fun l => Ok (g l))) (seq 0 (S n)) [] h); try discriminate.
    - apply calls_some.
    - intros p i v. unfold zip_out. destruct (_ <? _); [|exists []; auto]. destruct (row _ _ _); [eexists [_]; reflexivity|exists []; auto].
    - reflexivity.
    - intros i e I. destruct (calls_ids i e I). split; auto. apply in_seq. lia.
    - intros i I. apply in_seq in I. eexists. apply proj_calls. lia.
  Qed.

  (** with_latest_from *)
  Notation R := (list_max (map needs (map (@length V) ls))).
  Notation rnd r := (lifted (S n) (round_push ls r)).
  Lemma lifted_app : forall (a b : hist V), lifted (S n) (a ++ b) = lifted (S n) a ++ lifted (S n) b.
  Proof. intros. apply map_app. Qed.
  Lemma calls_rounds : h = flat_map (fun r => rnd r) (seq 0 R).
  Proof.
    unfold lifted_calls. rewrite pushed_all by auto. induction (seq 0 R) as [|r l IH]; auto. cbn [flat_map]. now rewrite lifted_app, IH.
  Qed.
  (** One round: the others, then the main source. *)
  Lemma round_split : forall r, round_push ls r =
    flat_map (tell ls r) (filter (fun i => r <? needs (length (nth i others []))) (seq 0 n)) ++
    (if r <? needs (length main) then tell ls r n else []).
  Proof.
    intro r. unfold round_push, round_ids. rewrite map_length, len_ls, seq_S, filter_app, flat_map_app. cbn [plus]. f_equal.
    - f_equal. apply filter_ext_in. intros i I. apply in_seq in I. now rewrite nth_lens, app_nth1 by lia.
    - cbn [filter]. rewrite nth_lens, app_nth2, Nat.sub_diag by lia. cbn [nth]. destruct (r <? needs (length main)); cbn [flat_map]; auto. now rewrite app_nil_r.
  Qed.
  Notation rest r := (lifted (S n) (flat_map (tell ls r) (filter (fun i => r <? needs (length (nth i others []))) (seq 0 n)))).
  Lemma lifted_main : forall r, lifted (S n) (tell ls r n) = map (pair 0) (from_events main r).
  Proof.
    intro r. unfold lifted, tell. rewrite map_map. cbn [fst snd]. rewrite Nat.ltb_irrefl, app_nth2, Nat.sub_diag by lia. reflexivity.
  Qed.
  Lemma rest_ids : forall r i e, In (i, e) (rest r) -> 0 < i /\ (e = Done \/ exists v, e = Next v).
  Proof.
    intros r i e H. unfold lifted in H. apply in_map_iff in H. destruct H as ((j, x) & E & I). cbn [fst snd] in E. injection E as <- <-.
    apply in_flat_map in I. destruct I as (a & A1 & A2). apply filter_In in A1. destruct A1 as (A1 & _). apply in_seq in A1.
    unfold tell in A2. apply in_map_iff in A2. destruct A2 as (y & E & I). injection E as <- <-. split.
    - destruct (Nat.ltb_spec (S a) (S n)); lia.
    - unfold from_events in I. destruct (nth_error (nth a ls []) r); [destruct I as [<-|I]; eauto; destruct (S r <? length (nth a ls [])); [destruct I|destruct I as [<-|[]]; auto]|destruct I as [<-|[]]; auto].
  Qed.
  Lemma rest_silent : forall B (f : V -> list V -> res B) g past, (forall i e, In (i, e) g -> 0 < i /\ (e = Done \/ exists v, e = Next v)) ->
    outs_from (with_latest_out n f) past g = [].
  Proof.
    induction g as [|(i, e) g IH]; intros past H; auto. cbn [outs_from]. rewrite IH by (intros; apply H; now right). rewrite app_nil_r.
    destruct (H i e (or_introl eq_refl)) as (P & [->|(v & ->)]); cbn; destruct (Nat.eqb_spec i 0); auto; lia.
  Qed.
  Lemma past_values : forall r j, 1 <= j <= n -> values j (flat_map (fun r => rnd r) (seq 0 r) ++ rest r) = firstn (S r) (list_of j).
  Proof.
    intros r j Lj.
    assert (E : values j (flat_map (fun r => rnd r) (seq 0 r) ++ rest r) = values j (flat_map (fun r => rnd r) (seq 0 (S r)))).
    { rewrite seq_S, flat_map_app, !values_app. f_equal. cbn [flat_map plus]. rewrite app_nil_r, round_split, lifted_app, values_app.
      match goal with |- _ = _ ++ ?x => assert (Z : x = []); [|now rewrite Z, app_nil_r] end.
      destruct (r <? needs (length main)); auto. rewrite lifted_main. generalize (from_events main r). intro l. unfold values. induction l as [|e l IH]; auto.
      cbn [map flat_map fst snd]. rewrite IH, app_nil_r. destruct (Nat.eqb_spec 0 j); auto. lia. }
    rewrite E. replace (flat_map (fun r => rnd r) (seq 0 (S r))) with (lifted (S n) (flat_map (round_push ls) (seq 0 (S r)))).
    - rewrite values_proj, proj_lifted.
      + rewrite proj_rounds by (rewrite len_ls; destruct j; cbn; lia). rewrite list_task by lia. unfold said. rewrite nexts_app, nexts_map.
        destruct (_ <=? _); cbn; now rewrite app_nil_r.
      + lia.
      + intros i e I. apply full_ids in I. rewrite len_ls in I. lia.
    - clear E. induction (seq 0 (S r)) as [|a l IH]; auto. cbn [flat_map]. now rewrite lifted_app, IH.
  Qed.
  Lemma last_firstn : forall (l : list V) r, match rev (firstn (S r) l) with v :: _ => Some v | [] => None end = last_upto l r.
  Proof.
    intros l r. unfold last_upto. destruct l as [|x l]; [cbn [length Nat.sub]; rewrite Nat.min_0_r; reflexivity|].
    set (l' := x :: l). assert (P : length (firstn (S r) l') = S (Nat.min r (length l' - 1))) by (rewrite firstn_length; cbn; lia).
    destruct (firstn (S r) l') as [|y q] eqn:Q using rev_ind; [discriminate|]. clear IHq. rewrite rev_app_distr. cbn [rev app].
    rewrite app_length in P. cbn [length] in P. set (k := Nat.min r (length l' - 1)) in *. clearbody k.
    assert (K : k = length q) by lia. subst k.
    rewrite <- (firstn_skipn (S r) l'), Q, <- app_assoc, nth_error_app2, Nat.sub_diag by lia. reflexivity.
  Qed.
  Definition main_round {B} (f : V -> list V -> res B) (r : nat) : list (ev B) :=
    if r <? needs (length main) then
      match nth_error main r with
      | Some v => (match all_of (map (fun l => last_upto l r) others) with Some l => of_res (f v l) | None => [] end) ++ (if S r <? length main then [] else [Done])
      | None => [Done]
      end
    else [].
  Lemma latest_others : forall r, map (fun j => latest j (flat_map (fun r => rnd r) (seq 0 r) ++ rest r)) (seq 1 n) = map (fun l => last_upto l r) others.
  Proof.
    intro r. rewrite <- seq_shift, map_map.
    assert (Y : map (fun i => last_upto (nth i others []) r) (seq 0 n) = map (fun l => last_upto l r) others).
    { generalize others. intro l. assert (Y : forall a, map (fun j => last_upto (nth (j - a) l []) r) (seq a (length l)) = map (fun l => last_upto l r) l).
      { induction l as [|x l IH]; intro a; auto. cbn [length seq map]. rewrite Nat.sub_diag. cbn [nth]. f_equal. rewrite <- (IH (S a)).
        apply map_ext_in. intros j I. apply in_seq in I. now replace (j - a) with (S (j - S a)) by lia. }
      rewrite <- (Y 0). apply map_ext. intro j. now rewrite Nat.sub_0_r. }
    rewrite <- Y. apply map_ext_in. intros i I. apply in_seq in I. unfold latest. rewrite past_values by lia. now rewrite last_firstn.
  Qed.
  Lemma round_outs : forall B (f : V -> list V -> res B) r, outs_from (with_latest_out n f) (flat_map (fun r => rnd r) (seq 0 r)) (rnd r) = main_round f r.
  Proof.
    intros B f r. rewrite round_split, lifted_app, outs_from_app, rest_silent by apply rest_ids. cbn [app]. unfold main_round.
    destruct (r <? needs (length main)); auto. rewrite lifted_main. unfold from_events. destruct (nth_error main r) as [v|].
    - cbn [map outs_from]. unfold with_latest_out at 1. rewrite Nat.eqb_refl, latest_others. f_equal. destruct (S r <? length main); reflexivity.
    - reflexivity.
  Qed.
  Theorem with_latest_outs : forall B (f : V -> list V -> res B), outs (with_latest_out n f) h = sampled f main others ++ [Done].
  Proof.
    intros B f. unfold outs. rewrite calls_live, calls_rounds.
    assert (X : forall m, outs_from (with_latest_out n f) [] (flat_map (fun r => rnd r) (seq 0 m)) = flat_map (main_round f) (seq 0 m)).
    { induction m as [|m IH]; auto. rewrite seq_S, !flat_map_app, outs_from_app, IH. f_equal. cbn [flat_map plus app]. rewrite !app_nil_r. apply round_outs. }
    rewrite X.
    assert (LM : needs (length main) <= R).
    { pose proof (need_max (map (@length V) ls) n) as H. rewrite map_length, len_ls, nth_lens, app_nth2, Nat.sub_diag in H by lia. apply H. lia. }
    replace R with (needs (length main) + (R - needs (length main))) by lia. rewrite seq_app, flat_map_app.
    replace (flat_map (main_round f) (seq (0 + _) _)) with (@nil (ev B)).
    2:{ symmetry. assert (Z : forall l, (forall r, In r l -> needs (length main) <= r) -> flat_map (main_round f) l = []).
        { induction l as [|r l IH]; intro H; auto. cbn [flat_map]. rewrite IH by (intros; apply H; now right). rewrite app_nil_r. unfold main_round.
          rewrite (proj2 (Nat.ltb_ge _ _)); auto. apply H. now left. }
        apply Z. intros r I. apply in_seq in I. lia. }
    rewrite app_nil_r. unfold sampled, needs. destruct (length main) as [|m] eqn:LEN.
    - cbn. unfold main_round. rewrite LEN. destruct main; [reflexivity|discriminate].
    - change (Nat.max 1 (S m)) with (S m). rewrite seq_S, !flat_map_app, <- app_assoc. f_equal.
      + apply flat_map_ext_in. intros r I. apply in_seq in I. unfold main_round, needs. rewrite LEN. rewrite (proj2 (Nat.ltb_lt r _)) by lia.
        destruct (nth_error main r) as [v|] eqn:Q; [|apply nth_error_None in Q; lia]. rewrite (proj2 (Nat.ltb_lt (S r) _)) by lia. now rewrite app_nil_r.
      + cbn [flat_map plus]. rewrite !app_nil_r. unfold main_round, needs. rewrite LEN. rewrite (proj2 (Nat.ltb_lt m _)) by lia.
        destruct (nth_error main m) as [v|] eqn:Q; [|apply nth_error_None in Q; lia]. rewrite (proj2 (Nat.ltb_ge (S m) _)) by lia. reflexivity.
  Qed.
End Lifted.
