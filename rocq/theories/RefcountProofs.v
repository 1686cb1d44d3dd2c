(** C11. *)
From Coq Require Import Permutation.
From Verif Require Import Base Concur RefcountModel.

Definition rels (tr : list rlabel) : list nat :=
  flat_map (fun l => match l with LRelease i => [i] | _ => [] end) tr.
Definition rel_id (it : ritem) : list nat :=
  match it with RRelLoad i | RRelTry i _ => [i] | _ => [] end.
Definition pend (l : list ritem) : list nat := flat_map rel_id l.
(** Reference i will still be disposed by somebody, or is a live child. *)
Definition cares (i : nat) (it : ritem) : bool :=
  match it with RAdd j | RInner j => i =? j | RPLoop l => inb i l | _ => false end.
Definition is_pdisp (it : ritem) : bool := match it with RPDispose => true | _ => false end.
Definition is_pstore (it : ritem) : bool := match it with RPStore => true | _ => false end.

Lemma inb_In : forall i l, inb i l = true <-> In i l.
Proof.
  intros. unfold inb. rewrite existsb_exists. split.
  - intros (x & I & E). apply Nat.eqb_eq in E. now subst.
  - intro I. exists i. split; auto. apply Nat.eqb_refl.
Qed.
Lemma inb_nIn : forall i l, inb i l = false <-> ~ In i l.
Proof. intros. rewrite <- inb_In. destruct (inb i l); intuition congruence. Qed.
Lemma opt_eqb_eq : forall a b, opt_eqb a b = true -> a = b.
Proof. intros [x|] [y|]; cbn; intro E; try discriminate; auto. apply Nat.eqb_eq in E. congruence. Qed.

Definition item_lt (n : nat) (it : ritem) : Prop :=
  match it with
  | RAdd i | RGive i | RInner i | RRelLoad i | RRelTry i _ => i < n
  | RPLoop l => forall i, In i l -> i < n
  | _ => True
  end.

Definition is_late (it : ritem) : bool := match it with RPStore | RPClear => true | _ => false end.

Record RInv (s : rstate) (l : list ritem) (tr : list rlabel) : Prop := mkRInv {
  v_cnt : forall n, r_cnt s = Some n -> n + length (rels tr) = r_next s /\ (r_next s > 0 -> n > 0);
  v_nd : NoDup (pend l ++ rels tr);
  v_sub : incl (pend l ++ rels tr) (r_idead s);
  v_idead : forall i, In i (r_idead s) -> In i (pend l) \/ In i (rels tr) \/ r_cnt s = None;
  v_lt : (forall i, In i (r_idead s) -> i < r_next s) /\ (forall i, In i (r_kids s) -> i < r_next s) /\
         (forall i, In i (r_given s) -> i < r_next s) /\ (forall it, In it l -> item_lt (r_next s) it);
  v_none : r_cnt s = None -> In LDirect tr \/ (r_next s > 0 /\ forall i, i < r_next s -> In i (r_idead s));
  v_dead : r_dead s = true -> r_cnt s = None \/ count is_pstore l > 0;
  v_none_dead : r_cnt s = None -> r_dead s = true \/ count is_pdisp l > 0;
  v_pdisp : (r_dead s = true \/ count is_pdisp l > 0) -> In LDirect tr \/ r_cnt s = None;
  v_direct : In LDirect tr -> r_dead s = true \/ count is_pdisp l > 0;
  v_stale : forall i, In (RRelTry i None) l -> r_cnt s = None;
  v_late : count is_late l > 0 -> r_dead s = true;
  v_all : forall i, i < r_next s -> In i (r_idead s) \/ count (cares i) l > 0 \/ (In i (r_kids s) /\ r_dead s = false)
}.

Lemma NoDup_suffix : forall (a b : list nat), NoDup (a ++ b) -> NoDup b.
Proof. induction a; cbn; intros b N; auto. inversion N; auto. Qed.

Lemma rels_app : forall a b, rels (a ++ b) = rels a ++ rels b.
Proof. intros. unfold rels. now rewrite flat_map_app. Qed.
Lemma pend_app : forall a b, pend (a ++ b) = pend a ++ pend b.
Proof. intros. unfold pend. now rewrite flat_map_app. Qed.
Lemma pend_cons : forall a b, pend (a :: b) = rel_id a ++ pend b.
Proof. reflexivity. Qed.

Lemma RInv_perm : forall s l l' tr, Permutation l l' -> RInv s l tr -> RInv s l' tr.
Proof.
  intros s l l' tr P [A B C D E F G H I J S T K].
  assert (PP: Permutation (pend l) (pend l')) by now apply Permutation_flat_map.
  assert (Q: forall f, count f l' = count f l) by (intro; symmetry; now apply count_perm).
  constructor; rewrite ?Q; auto.
  - eapply Permutation_NoDup; [|exact B]. now apply Permutation_app_tail.
  - intros x Hx. apply C. apply in_app_or in Hx as [X|X]; apply in_or_app; auto. left. eapply Permutation_in; [symmetry|]; eauto.
  - intros i Hi. destruct (D i Hi) as [X|[X|X]]; auto. left. eapply Permutation_in; eauto.
  - destruct E as (E1 & E2 & E3 & E4). repeat split; auto. intros it Hit. apply E4. eapply Permutation_in; [symmetry|]; eauto.
  - intros i Hi. eapply S. eapply Permutation_in; [symmetry|]; eauto.
  - intros i Hi. rewrite Q. auto.
Qed.

Lemma RInv_init : forall progs, RInv (fst (r_init progs)) (concat (snd (r_init progs))) [].
Proof.
  intro progs. unfold r_init. cbn [fst snd].
  assert (Z: forall x, In x (concat (map (map RUser) progs)) -> exists u, x = RUser u).
  { intros x H. apply in_concat in H as (t & H1 & H2). apply in_map_iff in H1 as (p & <- & _).
    apply in_map_iff in H2 as (u & <- & _). eauto. }
  assert (PZ: pend (concat (map (map RUser) progs)) = []).
  { revert Z. generalize (concat (map (map RUser) progs)). induction l as [|x l IH]; intro Z; auto.
    rewrite pend_cons, IH. 2:{ intros; apply Z; now right. } destruct (Z x (or_introl eq_refl)) as [u ->]. reflexivity. }
  assert (CZ: forall f, (forall u, f (RUser u) = false) -> count f (concat (map (map RUser) progs)) = 0).
  { intros f H. apply count_zero_of. intros x Hx. destruct (Z x Hx) as [u ->]. auto. }
  constructor; cbn [r_init_state r_cnt r_dead r_kids r_idead r_next r_given rels flat_map]; rewrite ?PZ, ?CZ by auto; cbn; auto; try discriminate; try lia.
  - intros n E. inversion E. subst. split; [auto|lia].
  - constructor.
  - intros x [].
  - repeat split; try (intros i []). intros it H. destruct (Z it H) as [u ->]. exact I.
  - intros i H. destruct (Z _ H) as [u X]. discriminate.
Qed.


Ltac norm := cbn [app rel_id r_cnt r_dead r_kids r_idead r_next r_given set_cnt rels flat_map is_pstore is_pdisp is_late cares Nat.add] in *.
Ltac start := constructor; unfold set_cnt in *; rewrite ?rels_app, ?app_nil_r in *; norm;
  rewrite ?count_cons, ?pend_cons, ?app_nil_r in *; norm.
Ltac triv := solve
  [ auto | discriminate
  | let j := fresh in let Hj := fresh in intros j Hj; rewrite ?count_cons; norm; auto
  | let x := fresh in let X := fresh in repeat split; auto; intros x X; repeat (destruct X as [<-|X]; [cbn; auto; fail|]); auto
  | let i := fresh in let X := fresh in intros i X; repeat (destruct X as [X|X]; [discriminate|]); eauto
  | match goal with I : _ -> _ \/ ?c = None |- _ -> _ \/ ?c = None => let X := fresh in let Y := fresh in intro X; destruct (I X) as [Y|Y]; auto; left; apply in_or_app; auto end
  | match goal with I : _ -> In LDirect _ \/ _ |- _ -> _ \/ (_ /\ _) => let X := fresh in let Y := fresh in intro X; destruct (I X) as [Y|Y]; auto; left; apply in_or_app; auto end
  | let X := fresh in intro X; apply in_app_or in X; destruct X as [X|[X|[]]]; [auto|discriminate]
  ].

Lemma RInv_step : forall s it l tr s' its ls,
  RInv s (it :: l) tr -> r_step s it = Some (s', its, ls) -> RInv s' (its ++ l) (tr ++ ls).
Proof.
  intros s it l tr s' its ls V E.
  destruct V as [A B C D (E1 & E2 & E3 & E4) F G H I J SS T K].
  assert (IT: item_lt (r_next s) it) by (apply E4; now left).
  assert (E4': forall x, In x l -> item_lt (r_next s) x) by (intros; apply E4; now right).
  assert (S': forall i, In (RRelTry i None) l -> r_cnt s = None) by (intros; eapply SS; right; eauto).
  assert (K': forall i, i < r_next s -> In i (r_idead s) \/ (if cares i it then 1 else 0) + count (cares i) l > 0 \/ (In i (r_kids s) /\ r_dead s = false))
    by (intros i Hi; rewrite <- count_cons; auto). clear K.
  rewrite pend_cons in *. rewrite count_cons in *.
  destruct it as [u| |v|i|i|i|i|i v| | |k|].
  - (* RUser *)
    destruct u as [|i|]; cbn [r_step] in E.
    + inversion E; subst; clear E. start; try triv.
    + destruct (inb i (r_given s)) eqn:G0; inversion E; subst; clear E; start; try triv.
      * repeat split; auto. intros x [<-|X]; cbn; auto. apply E3. now apply inb_In.
      * intros j Hj. rewrite count_cons. destruct (K' j Hj) as [X|[X|X]]; auto. right; left; lia.
    + inversion E; subst; clear E. start; try triv.
      * intros _. right. lia.
      * intros _. left. apply in_or_app. right. now left.
      * intros _. right. lia.
  - (* RLoad *)
    inversion E; subst; clear E. start; try triv.
  - (* RTry *)
    destruct v as [n|]; cbn [r_step] in E.
    + destruct (opt_eqb (r_cnt s) (Some n)) eqn:Q; inversion E; subst; clear E.
      * apply opt_eqb_eq in Q. destruct (A n Q) as [A1 A2]. start; try triv.
        -- intros m X. inversion X; subst. lia.
        -- intros j Hj. destruct (D j Hj) as [X|[X|X]]; auto. congruence.
        -- repeat split.
           ++ intros j Hj. apply E1 in Hj. lia.
           ++ intros j Hj. apply E2 in Hj. lia.
           ++ intros j Hj. apply E3 in Hj. lia.
           ++ intros x [<-|X]; cbn; [lia|]. apply E4' in X. clear - X. destruct x; cbn in *; auto; try lia. intros j Hj. apply X in Hj. lia.
        -- intro X. destruct (G X) as [Y|Y]; [congruence|auto].
        -- intro X. destruct (I X) as [Y|Y]; [|congruence]. left. apply in_or_app; auto.
        -- intros j [X|X]; [discriminate|]. apply S' in X. congruence.
        -- intros j Hj. rewrite count_cons. cbn. destruct (Nat.eq_dec j (r_next s)) as [->|NE].
           ++ right; left. rewrite Nat.eqb_refl. lia.
           ++ destruct (K' j ltac:(lia)) as [X|[X|X]]; auto. right; left; lia.
      * start; try triv.
    + inversion E; subst; clear E. start; try triv.
  - (* RAdd *)
    cbn [r_step] in E. destruct (r_dead s) eqn:DD; inversion E; subst; clear E.
    + start; rewrite ?DD in *; try triv.
    + start; try triv.
      * repeat split; auto.
        -- intros j Hj. apply in_app_or in Hj as [Hj|[<-|[]]]; auto.
        -- intros x [<-|X]; cbn in *; auto.
      * intros j Hj. rewrite !count_cons. cbn in *. destruct (K' j Hj) as [X|[X|[X _]]]; auto.
        -- destruct (Nat.eqb_spec j i) as [->|]; [|right; left; lia]. right; right. split; auto. apply in_or_app. right. now left.
        -- right; right. split; auto. apply in_or_app. auto.
  - (* RGive *)
    cbn [r_step] in E. inversion E; subst; clear E. start; try triv.
  - (* RInner *)
    cbn [r_step] in E. destruct (inb i (r_idead s)) eqn:Q; inversion E; subst; clear E.
    + start; try triv.
      intros j Hj. destruct (K' j Hj) as [X|[X|X]]; auto. cbn in X. destruct (Nat.eqb_spec j i) as [->|]; auto.
      left. now apply inb_In.
    + apply inb_nIn in Q. start; try triv.
      * constructor; auto.
      * intros x [<-|X]; [now left|right; auto].
      * intros j [<-|Hj]; [left; now left|]. destruct (D j Hj) as [X|X]; auto. left; now right.
      * intro X. destruct (F X) as [Y|[Y Z]]; auto. right. split; auto. intros j Hj. right. auto.
      * intros j Hj. rewrite count_cons. cbn. destruct (K' j Hj) as [X|[X|X]]; auto. cbn in X.
        destruct (Nat.eqb_spec j i) as [->|]; auto.
  - (* RRelLoad *)
    cbn [r_step] in E. inversion E; subst; clear E. start; try triv.
    intros j [X|X]; eauto. congruence.
  - (* RRelTry *)
    destruct v as [n|]; cbn [r_step] in E.
    + destruct (opt_eqb (r_cnt s) (Some n)) eqn:Q.
      * apply opt_eqb_eq in Q. destruct (A n Q) as [A1 A2].
        assert (NDP: NoDup (pend l ++ rels tr ++ [i])).
        { rewrite app_assoc. eapply Permutation_NoDup; [|exact B]. cbn. apply Permutation_cons_append. }
        assert (SUB: incl (pend l ++ rels tr ++ [i]) (r_idead s)).
        { intros x Hx. apply C. rewrite app_assoc in Hx. apply in_app_or in Hx as [Hx|[<-|[]]]; [right; auto|now left]. }
        assert (DD: forall j, In j (r_idead s) -> In j (pend l) \/ In j (rels tr ++ [i])).
        { intros j Hj. destruct (D j Hj) as [X|[X|X]]; [destruct X as [<-|X]|..]; auto; try congruence;
          right; apply in_or_app; auto. right; now left. }
        assert (ND: r_dead s = true -> count is_pstore l > 0).
        { intro X. destruct (G X) as [Y|Y]; [congruence|]. cbn in Y. lia. }
        destruct (Nat.eqb_spec n 1) as [->|N1]; inversion E; subst; clear E.
        -- start; try triv.
           ++ intros _. right. split; [lia|]. intros j Hj.
              (* pigeonhole: rels tr ++ [i] has r_next distinct elements below r_next *)
              assert (L: length (rels tr ++ [i]) = r_next s) by (rewrite app_length; cbn; lia).
              assert (N: NoDup (rels tr ++ [i])) by (apply NoDup_suffix in NDP; auto).
              assert (IN: incl (seq 0 (r_next s)) (rels tr ++ [i])).
              { apply NoDup_length_incl; auto. rewrite seq_length. lia.
                intros x Hx. apply in_seq. split; [lia|]. cbn. apply E1. apply SUB. apply in_or_app. auto. }
              apply SUB. apply in_or_app. right. apply IN. apply in_seq. lia.
           ++ intros _. right. lia.
           ++ intros _. right. lia.
        -- start; try triv.
           ++ intros m X. inversion X; subst. rewrite app_length. cbn. assert (Y: r_next s > 0) by (cbn in IT; lia). specialize (A2 Y). lia.
           ++ intros j Hj. destruct (DD j Hj); auto.
           ++ intro X. destruct (I X) as [Y|Y]; [|congruence]. left. apply in_or_app; auto.
           ++ intros j X. apply S' in X. congruence.
      * inversion E; subst; clear E. start; try triv. intros j [X|X]; eauto. congruence.
    + (* the counter was already s_disposed when loaded, and stays so *)
      assert (N: r_cnt s = None) by (eapply SS; left; reflexivity).
      inversion E; subst; clear E.
      start; try triv.
      * now inversion B.
      * intros x X. apply C. now right.
  - (* RPDispose *)
    cbn [r_step] in E. destruct (r_dead s) eqn:DD; inversion E; subst; clear E; start; rewrite ?DD in *; try triv.
    + intros _. right. lia.
    + intros _. destruct (I (or_intror (Nat.lt_0_succ _))) as [Y|Y]; auto. left. apply in_or_app. auto.
    + intros j Hj. rewrite !count_cons. cbn. destruct (K' j Hj) as [X|[X|[X _]]]; auto.
      * right; left. destruct (inb j (r_kids s)); lia.
      * right; left. apply inb_In in X. rewrite X. lia.
  - (* RPStore *)
    cbn [r_step] in E. inversion E; subst; clear E. start; try triv.
    + intros _. destruct (I (or_introl (T ltac:(lia)))) as [Y|Y]; auto.
    + intros _. left. apply T. lia.
  - (* RPLoop *)
    destruct k as [|i r]; cbn [r_step] in E; inversion E; subst; clear E; start; try triv.
    + repeat split; auto. cbn in IT. intros x [<-|[<-|X]]; cbn in *; auto.
    + intros j Hj. rewrite !count_cons. cbn in *. destruct (K' j Hj) as [X|[X|X]]; auto. right; left.
      unfold inb in *. cbn in X. destruct (j =? i); cbn in *; lia.
  - (* RPClear *)
    cbn [r_step] in E. inversion E; subst; clear E. start; try triv.
    + repeat split; auto. intros j [].
    + intros j Hj. destruct (K' j Hj) as [X|[X|[X Y]]]; auto. rewrite T in Y by lia. discriminate.
Qed.

(** Who disposed a reference: the user, or the disposed parent. *)
Definition inner_of (i : nat) (it : ritem) : bool :=
  match it with RInner j => i =? j | _ => false end.
Record RWhy (s : rstate) (l : list ritem) (tr : list rlabel) : Prop := mkRWhy {
  y_inv : RInv s l tr;
  y_why : forall i, In i (r_idead s) \/ count (inner_of i) l > 0 -> In (LRef i) tr \/ r_dead s = true;
  y_loop : forall k, In (RPLoop k) l -> r_dead s = true;
  y_none : r_cnt s = None -> In LDirect tr \/ forall i, i < r_next s -> In (LRef i) tr;
  y_take : forall i, In (LTake i) tr <-> i < r_next s;
  y_ref : forall i, In (LRef i) tr -> In i (r_idead s) \/ count (inner_of i) l > 0
}.

Lemma RWhy_perm : forall s l l' tr, Permutation l l' -> RWhy s l tr -> RWhy s l' tr.
Proof.
  intros s l l' tr P [A B C D E F].
  assert (Q: forall f, count f l' = count f l) by (intro; symmetry; now apply count_perm).
  constructor; auto.
  - eapply RInv_perm; eauto.
  - intros i. rewrite Q. apply B.
  - intros k Hk. eapply C. eapply Permutation_in; [symmetry|]; eauto.
  - intros i Hi. rewrite Q. auto.
Qed.

Lemma RWhy_init : forall progs, RWhy (fst (r_init progs)) (concat (snd (r_init progs))) [].
Proof.
  intro progs.
  assert (Z: forall x, In x (concat (map (map RUser) progs)) -> exists u, x = RUser u).
  { intros x H. apply in_concat in H as (t & H1 & H2). apply in_map_iff in H1 as (p & <- & _).
    apply in_map_iff in H2 as (u & <- & _). eauto. }
  constructor; [apply RInv_init|..]; unfold r_init; cbn [fst snd r_init_state r_idead r_dead r_cnt r_next].
  - intros i [[]|H]. rewrite count_zero_of in H; [lia|]. intros x Hx. destruct (Z x Hx) as [u ->]. reflexivity.
  - intros k H. destruct (Z _ H) as [u X]. discriminate.
  - discriminate.
  - cbn. split; [tauto|lia].
  - intros i [].
Qed.

Lemma RWhy_step : forall s it l tr s' its ls,
  RWhy s (it :: l) tr -> r_step s it = Some (s', its, ls) -> RWhy s' (its ++ l) (tr ++ ls).
Proof.
  intros s it l tr s' its ls [A B C D E F] ST.
  pose proof (RInv_step _ _ _ _ _ _ _ A ST) as A'.
  constructor; auto; clear A'.
  all: assert (B': forall i, In i (r_idead s) \/ (if inner_of i it then 1 else 0) + count (inner_of i) l > 0 -> In (LRef i) tr \/ r_dead s = true)
    by (intro i; rewrite <- count_cons; auto).
  all: assert (F': forall i, In (LRef i) tr -> In i (r_idead s) \/ (if inner_of i it then 1 else 0) + count (inner_of i) l > 0)
    by (intro i; rewrite <- count_cons; auto).
  all: assert (C': forall k, In (RPLoop k) l -> r_dead s = true) by (intros; eapply C; right; eauto).
  all: clear B F.

  - intros i. rewrite count_app.
    destruct it as [[|j|]| |[n|]|j|j|j|j|j [n|]| | |[|j k]|]; cbn [r_step] in ST;
    repeat match type of ST with (if ?b then _ else _) = _ => let Q := fresh "Q" in destruct b eqn:Q end;
    inversion ST; subst; clear ST; cbn [r_idead r_dead set_cnt In] in *; rewrite ?count_cons, ?count_nil in *; cbn [inner_of Nat.add] in *;
    specialize (B' i); intro X; rewrite in_app_iff;
    try (now auto);
    try (destruct B' as [Y|Y]; [ first [tauto | destruct X; [left; tauto|right; lia]] | auto | auto ]; fail).
    + destruct (Nat.eqb_spec i j) as [->|]; [left; right; now left|].
      destruct (B' X) as [Y|Y]; auto.
    + assert (Y: In (LRef i) tr \/ r_dead s = true); [|tauto]. apply B'.
      destruct X as [[<-|X]|X]; [right; rewrite Nat.eqb_refl; lia|left; auto|right; destruct (i =? j); lia].
    + right. eapply C. now left.
  - intros k I0. apply in_app_or in I0.
    destruct it as [[|j|]| |[n|]|j|j|j|j|j [n|]| | |[|j k']|]; cbn [r_step] in ST;
    repeat match type of ST with (if ?b then _ else _) = _ => let Q := fresh "Q" in destruct b eqn:Q end;
    inversion ST; subst; clear ST; cbn [r_idead r_dead set_cnt In] in *; auto.
    all: repeat match goal with H : _ \/ _ |- _ => destruct H end; try discriminate; try contradiction; eauto.
  - rewrite in_app_iff. intro N.
    assert (M: In LDirect tr \/ (forall i, i < r_next s -> In (LRef i) tr) -> r_next s' = r_next s ->
      (In LDirect tr \/ In LDirect ls) \/ (forall i, i < r_next s' -> In (LRef i) (tr ++ ls))).
    { intros [Y|Y] ->; auto. right. intros i Hi. apply in_or_app. auto. }
    destruct it as [[|j|]| |[n|]|j|j|j|j|j [n|]| | |[|j k']|]; cbn [r_step] in ST;
    repeat match type of ST with (if ?b then _ else _) = _ => let Q := fresh "Q" in destruct b eqn:Q end;
    inversion ST; subst; clear ST; cbn [r_idead r_dead r_cnt r_next set_cnt] in *; auto; try discriminate.
    + (* the last release *)
      pose proof A as A0. pose proof (RInv_step s (RRelTry j (Some n)) l tr) as R. cbn [r_step] in R.
      rewrite Q, Q0 in R. specialize (R _ _ _ A eq_refl). destruct A. apply opt_eqb_eq in Q.
      apply M; auto. destruct (r_dead s) eqn:DD.
      * destruct (v_pdisp0 (or_introl eq_refl)) as [Y|Y]; [auto|congruence].
      * destruct R. destruct (v_none1 eq_refl) as [Y|[_ Y]].
        -- apply in_app_or in Y as [Y|[Y|[]]]; [auto|discriminate].
        -- right. intros i Hi. cbn in Y. destruct (B' i (or_introl (Y i Hi))); auto. discriminate.
    + (* PStore *)
      destruct A. rewrite count_cons in *. cbn in *.
      destruct (v_pdisp0 (or_introl (v_late0 ltac:(rewrite ?count_cons; cbn; lia)))); auto.
  - intro i. rewrite in_app_iff. specialize (E i).
    destruct it as [[|j|]| |[n|]|j|j|j|j|j [n|]| | |[|j k']|]; cbn [r_step] in ST;
    repeat match type of ST with (if ?b then _ else _) = _ => let Q := fresh "Q" in destruct b eqn:Q end;
    inversion ST; subst; clear ST; cbn [r_next set_cnt In] in *; try (intuition (try discriminate; auto); fail).
    rewrite E. split; [intros [Y|[Y|[]]]; [lia|inversion Y; lia]|].
    intro Y. destruct (Nat.eq_dec i (r_next s)) as [->|]; [auto|left; lia].
  - intro i. rewrite in_app_iff, count_app. specialize (F' i).
    destruct it as [[|j|]| |[n|]|j|j|j|j|j [n|]| | |[|j k']|]; cbn [r_step] in ST;
    repeat match type of ST with (if ?b then _ else _) = _ => let Q := fresh "Q" in destruct b eqn:Q end;
    inversion ST; subst; clear ST; rewrite ?count_cons, ?count_nil in *; cbn [r_next r_idead set_cnt In inner_of Nat.add] in *;
      try (intuition (try discriminate; auto); fail).
    + intros [Y|[Y|[]]]; [destruct (F' Y); auto; right; lia|]. inversion Y; subst. right. rewrite Nat.eqb_refl. lia.
    + intros [Y|[]]. destruct (F' Y); auto. right. lia.
    + intros [Y|[]]. destruct (F' Y) as [Z|Z]; auto. destruct (Nat.eqb_spec i j) as [e|]; auto. left. rewrite e. now apply inb_In.
    + intros [Y|[]]. destruct (F' Y) as [Z|Z]; auto. destruct (Nat.eqb_spec i j) as [e|]; [left; left; auto|auto].
    + intros [Y|[]]. destruct (F' Y); auto. right. lia.
Qed.

Arguments v_pdisp {s l tr} _.
Arguments v_none {s l tr} _.
Arguments v_direct {s l tr} _.
Arguments v_cnt {s l tr} _.
Arguments v_idead {s l tr} _.
Arguments v_none_dead {s l tr} _.
Arguments v_all {s l tr} _.
Arguments v_dead {s l tr} _.

Section Final.
  Variable progs : list (list ruser).
  Variable tr : list rlabel.
  Variable s : rstate.
  Variable ts : list (list ritem).
  Hypothesis X : gexec r_step (r_init progs) tr (s, ts).

  Lemma why : RWhy s (concat ts) tr.
  Proof. apply (gexec_inv r_step RWhy RWhy_perm RWhy_step _ _ _ X). apply RWhy_init. Qed.

  (** At every moment: not disposed before the last reference is (unless directly). *)
  Lemma not_early : r_dead s = true -> ~ In LDirect tr ->
    (exists i, In (LTake i) tr) /\ forall i, In (LTake i) tr -> In (LRef i) tr.
  Proof.
    intros D ND. destruct why as [V W L N T R]. pose proof (v_pdisp V (or_introl D)) as [Y|Y]; [contradiction|].
    destruct (N Y) as [Z|Z]; [contradiction|]. destruct (v_none V Y) as [Q|[Q _]]; [contradiction|].
    split. exists 0. apply T. lia. intros i Hi. apply Z. now apply T.
  Qed.

  Hypothesis F : gfinished (s, ts).

  Lemma done : concat ts = [].
  Proof. exact (gfinished_concat (s, ts) F). Qed.

  Lemma eventually : In LDirect tr \/ ((exists i, In (LTake i) tr) /\ forall i, In (LTake i) tr -> In (LRef i) tr) ->
    r_dead s = true.
  Proof.
    pose proof why as W. rewrite done in W. destruct W as [V W L N T R].
    intros [Y|[[j Y] Z]].
    - destruct (v_direct V Y) as [Q|Q]; auto. rewrite count_nil in Q. lia.
    - destruct (r_dead s) eqn:DD; auto. exfalso. apply T in Y.
      destruct (r_cnt s) as [n|] eqn:C.
      + destruct (v_cnt V _ C) as [C1 C2].
        assert (NR: forall i, i < r_next s -> In i (rels tr)).
        { intros i Hi. apply T, Z, R in Hi. rewrite count_nil in Hi. destruct Hi as [Hi|]; [|lia].
          destruct (v_idead V _ Hi) as [[]|[G|G]]; auto. congruence. }
        assert (LE: length (seq 0 (r_next s)) <= length (rels tr)).
        { apply NoDup_incl_length. apply seq_NoDup. intros i Hi. apply in_seq in Hi. apply NR. lia. }
        rewrite seq_length in LE. assert (r_next s > 0) by lia. lia.
      + destruct (v_none_dead V C) as [Q|Q]; [congruence|rewrite count_nil in Q; lia].
  Qed.

  Lemma all_disposed : r_dead s = true -> forall i, In (LTake i) tr -> In i (r_idead s).
  Proof.
    intros D i Hi. pose proof why as W. rewrite done in W. destruct W as [V W L N T R].
    apply T in Hi. destruct (v_all V _ Hi) as [Q|[Q|[_ Q]]]; auto; [rewrite count_nil in Q; lia|congruence].
  Qed.

  Lemma ref_alive : forall i, In (LTake i) tr -> In i (r_idead s) -> In (LRef i) tr \/ r_dead s = true.
  Proof. intros i _ Hi. destruct why as [V W L N T R]. apply W. auto. Qed.

  Lemma dead_cnt : r_dead s = true -> r_cnt s = None.
  Proof.
    intro D. pose proof why as W. rewrite done in W. destruct W as [V W L N T R].
    destruct (v_dead V D) as [Q|Q]; auto. rewrite count_nil in Q; lia.
  Qed.
End Final.

(** Once the counter says disposed no reference is ever counted again. *)
Lemma no_more_refs : forall s ts tr s' ts',
  r_cnt s = None -> gexec r_step (s, ts) tr (s', ts') ->
  r_cnt s' = None /\ forall i, ~ In (LTake i) tr.
Proof.
  intros s ts tr s' ts' N X.
  refine (gexec_tinv r_step (fun s _ tr => r_cnt s = None /\ forall i, ~ In (LTake i) tr) _ _ _ _ X _).
  - clear. intros s ts1 it rest ts2 tr s' its ls [N T] ST.
    destruct it as [[|j|]| |[n|]|j|j|j|j|j [n|]| | |[|j k']|]; cbn [r_step] in ST;
    rewrite ?N in ST; cbn [opt_eqb] in ST;
    repeat match type of ST with (if ?b then _ else _) = _ => let Q := fresh "Q" in destruct b eqn:Q end;
    inversion ST; subst; clear ST; cbn; split; auto; intros i Y; apply in_app_or in Y as [Y|Y]; try (eapply T; eauto; fail); 
    cbn in Y; intuition discriminate.
  - cbn. auto.
Qed.
