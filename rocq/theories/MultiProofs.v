(** merge, combine_latest and zip as instances of MultiCount.v. *)
From Verif Require Import Base Machine MachineProofs Concur MultiSpec MultiModel MultiLin MultiCount.

Section Merge.
  Context {V : Type} (D : machine V) (L : lawful D) (d0 : mst D).

  Definition merge_go (i : nat) (e : ev (unit + V)) : bool :=
    match e with Next (inr _) => negb (i =? 0) | Next (inl _) => false | _ => true end.
  Definition merge_post (e : ev (unit + V)) (i : nat) : ev V :=
    match e with Next (inr v) => Next v | Err x => Err x | _ => Done end.
  Definition merge_R (s : merge_s) (h : hist (unit + V)) : Prop :=
    ms_subs s = opened h /\ forall j, opened h < j -> completed j h = false.

  Lemma opened_next : forall i u, opened [(i, Next (@inl unit V u))] = if i =? 0 then 1 else 0.
  Proof. intros. unfold opened. cbn. destruct (i =? 0); reflexivity. Qed.
  Lemma opened_val : forall i v, opened [(i, Next (@inr unit V v))] = 0.
  Proof. intros. unfold opened. cbn. now rewrite andb_false_r. Qed.
  Lemma opened_done : forall i, opened [(i, @Done (unit + V))] = 0.
  Proof. intros. unfold opened. cbn. now rewrite andb_false_r. Qed.
  Lemma completed_next : forall A i j (v : A), completed j [(i, Next v)] = false.
  Proof. intros. cbn. now rewrite andb_false_r. Qed.

  Theorem merge_linearizable : forall progs tr c,
    gexec (istep (merge_op V) D (fun _ => [])) (g_init (merge_op V) D d0, threads (merge_op V) progs) tr c ->
    exists h, linearized (map (map fst) progs) tr h /\
      (g_lock (fst c) = false -> g_down (fst c) = mrun D d0 (outs merge_out h)) /\
      (gfinished c -> g_lock (fst c) = false).
  Proof.
    apply (counting_linearizable (merge_op V) D merge_out (fun h => S (opened h)) ms_needed merge_R merge_go merge_post L); auto.
    - intros n s i [[u|v]|x|]; cbn.
      + left. destruct (i =? 0); eauto.
      + destruct (i =? 0); [left | right]; eauto.
      + right. eauto.
      + destruct (ms_needed s =? 1); [right | left]; eauto.
    - split; auto.
    - intros s h i [E _] RD. cbn in RD. apply Nat.leb_le in RD. lia.
    - intros n s h i [u|v] [E1 E2] Li EN; cbn.
      + destruct (Nat.eqb_spec i 0) as [->|NE]; cbn.
        * split; auto. rewrite opened_app, opened_next. cbn. split; [split|].
          -- cbn. rewrite opened_app, opened_next. cbn. lia.
          -- intros j Hj. rewrite opened_app, opened_next in Hj. cbn in Hj. rewrite completed_app, completed_next, E2 by lia. reflexivity.
          -- right. repeat split; try lia. apply E2. lia.
        * split; auto. apply Nat.eqb_neq in NE. split; [split|].
          -- rewrite opened_app, opened_next, NE. lia.
          -- intros j Hj. rewrite opened_app, opened_next, NE in Hj. rewrite completed_app, completed_next, E2 by lia. reflexivity.
          -- left. rewrite opened_app, opened_next, NE. split; auto; lia.
      + destruct (Nat.eqb_spec i 0) as [->|NE]; cbn; auto. split; auto. split; [split|].
        * rewrite opened_app, opened_val. lia.
        * intros j Hj. rewrite opened_app, opened_val in Hj. rewrite completed_app, completed_next, E2 by lia. reflexivity.
        * left. rewrite opened_app, opened_val. split; auto; lia.
    - intros s h i [u|v] [E1 E2] Li EN GO; [discriminate|]. rewrite opened_app, opened_val. split; [lia|].
      exists s. cbn. cbn in GO. apply negb_true_iff in GO. rewrite GO. split; auto. split; auto. split.
      + rewrite opened_app, opened_val. lia.
      + intros j Hj. rewrite opened_app, opened_val in Hj. rewrite completed_app, completed_next, E2 by lia. reflexivity.
    - intros n s i. exists (MergeS (ms_needed s - 1) (ms_subs s)). cbn. split; auto. split; auto.
      intros h [E1 E2] Li. split; split; cbn; auto.
      + rewrite opened_app, opened_done. lia.
      + intros j Hj. rewrite opened_app, opened_done in Hj. rewrite completed_app, E2 by lia. cbn.
        rewrite orb_false_r, andb_true_r. apply Nat.eqb_neq. lia.
    - intros h i. unfold merge_out. rewrite opened_app, opened_done, Nat.add_0_r. split; reflexivity.
  Qed.
End Merge.

Lemma all_same : forall X (l : list (option X)), all_some l = all_of l.
Proof. induction l as [|[x|] l IH]; cbn; auto; now rewrite IH. Qed.

Lemma upd_map : forall X (f : X -> X) (g : nat -> X) n a i,
  upd i f (map g (seq a n)) = map (fun j => if j =? a + i then f (g j) else g j) (seq a n).
Proof.
  induction n as [|n IH]; intros a i; cbn [seq map upd]; [destruct i; reflexivity|].
  destruct i as [|i].
  - cbn [upd]. rewrite Nat.add_0_r, Nat.eqb_refl. f_equal. apply map_ext_in. intros j Hj. apply in_seq in Hj.
    destruct (Nat.eqb_spec j a); auto; lia.
  - cbn [upd]. destruct (Nat.eqb_spec a (a + S i)); [lia|]. f_equal. rewrite IH. apply map_ext_in. intros j _.
    now replace (S a + i) with (a + S i) by lia.
Qed.

Lemma values_next : forall A i j (v : A), values j [(i, Next v)] = if i =? j then [v] else [].
Proof. intros. cbn. destruct (i =? j); reflexivity. Qed.
Lemma latest_snoc : forall A i j (v : A) h, latest j (h ++ [(i, Next v)]) = if j =? i then Some v else latest j h.
Proof.
  intros. unfold latest. rewrite values_app, values_next, Nat.eqb_sym. destruct (j =? i).
  - now rewrite rev_app_distr.
  - now rewrite app_nil_r.
Qed.
Lemma values_done : forall A i j (h : hist A), values j (h ++ [(i, Done)]) = values j h.
Proof. intros. rewrite values_app. cbn. destruct (i =? j); cbn; apply app_nil_r. Qed.
Lemma latest_done : forall A i j (h : hist A), latest j (h ++ [(i, Done)]) = latest j h.
Proof. intros. unfold latest. now rewrite values_done. Qed.

Definition comb_post {A} (e : ev A) (i : nat) : ev A * nat + exn :=
  match e with Err x => inr x | _ => inl (e, i) end.

Section CombineLatest.
  Context {A B : Type} (n : nat) (f : list A -> res B) (D : machine B) (L : lawful D) (d0 : mst D).
  Hypothesis total : forall l, exists b, f l = Ok b.
  Notation op := (combine_latest_op n f).
  Definition cl_R (s : comb_s (option A)) (h : hist A) : Prop := cs_vals s = map (fun j => latest j h) (seq 0 n).

  Theorem combine_latest_linearizable : forall progs tr c,
    gexec (istep op D (fun _ => [])) (g_init op D d0, threads op progs) tr c ->
    exists h, linearized (map (map fst) progs) tr h /\
      (g_lock (fst c) = false -> g_down (fst c) = mrun D d0 (outs (combine_latest_out n f) h)) /\
      (gfinished c -> g_lock (fst c) = false).
  Proof.
    apply (counting_linearizable op D (combine_latest_out n f) (fun _ => n) (@cs_needed _) cl_R (fun _ _ => true) comb_post L); auto.
    - intros k s i [v|x|]; cbn; eauto. destruct (cs_needed s =? 1); eauto.
    - intros s [[[v|x|] i]|x]; cbn; auto. rewrite all_same. destruct (all_of _) as [l|]; auto.
      destruct (total l) as [b ->]. reflexivity.
    - unfold cl_R. cbn. clear. generalize 0 at 1. induction n as [|m IH]; intro a; cbn; auto. f_equal. auto.
    - intros s h i _ RD. cbn in RD. now apply Nat.ltb_lt in RD.
    - intros k s h i v RR Li _. cbn. reflexivity.
    - intros s h i v RR Li _ _. split; auto.
      assert (E : upd i (fun _ => Some v) (cs_vals s) = map (fun j => latest j (h ++ [(i, Next v)])) (seq 0 n)).
      { rewrite RR, upd_map. apply map_ext. intro j. now rewrite latest_snoc. }
      cbn. rewrite E, all_same. unfold combine_latest_out.
      destruct (all_of (map (fun j => latest j (h ++ [(i, Next v)])) (seq 0 n))) as [l|].
      + destruct (total l) as [b ->]. eexists. split; [reflexivity|]. split; reflexivity.
      + eexists. split; [reflexivity|]. split; reflexivity.
    - intros k s i. eexists. split; [reflexivity|]. split; auto. intros h RR _. split; auto.
      unfold cl_R in *. cbn. rewrite RR. apply map_ext. intro j. now rewrite latest_done.
  Qed.
End CombineLatest.

Lemma fold_min_le : forall l x, fold_left Nat.min l x <= x.
Proof. induction l as [|y l IH]; intro x; cbn; auto. specialize (IH (Nat.min x y)). lia. Qed.
Lemma fold_min_in : forall l x, In (fold_left Nat.min l x) (x :: l).
Proof.
  induction l as [|y l IH]; intro x; cbn [fold_left]; [now left|].
  destruct (IH (Nat.min x y)) as [E|E]; [|right; now right]. rewrite <- E.
  destruct (Nat.min_spec x y) as [[_ ->]|[_ ->]]; [now left | right; now left].
Qed.
Lemma fold_min_all : forall l x y, In y l -> fold_left Nat.min l x <= y.
Proof.
  induction l as [|z l IH]; intros x y I; [destruct I|]. destruct I as [->|I]; cbn; auto.
  pose proof (fold_min_le l (Nat.min x y)). lia.
Qed.

Lemma rows_le : forall A n (h : hist A) j, j < n -> rows n h <= length (values j h).
Proof.
  intros A n h j Hj. unfold rows. destruct n as [|n]; [lia|]. cbn [seq map].
  assert (I : In (length (values j h)) (length (values 0 h) :: map (fun j => length (values j h)) (seq 1 n))).
  { change (In (length (values j h)) (map (fun j => length (values j h)) (seq 0 (S n)))).
    apply in_map_iff. exists j. split; auto. apply in_seq. lia. }
  destruct I as [<-|I]; [apply fold_min_le | now apply fold_min_all].
Qed.
Lemma rows_eq : forall A n (h : hist A), 0 < n -> exists j, j < n /\ rows n h = length (values j h).
Proof.
  intros A n h Hn. unfold rows. destruct n as [|n]; [lia|]. cbn [seq map].
  pose proof (fold_min_in (map (fun j => length (values j h)) (seq 1 n)) (length (values 0 h))) as I.
  change (In (fold_left Nat.min (map (fun j => length (values j h)) (seq 1 n)) (length (values 0 h)))
             (map (fun j => length (values j h)) (seq 0 (S n)))) in I.
  apply in_map_iff in I as (j & E & I). apply in_seq in I. exists j. split; [lia | auto].
Qed.
Lemma all_of_some : forall X (f : nat -> option X) l, (forall j, In j l -> f j <> None) ->
  exists r, all_of (map f l) = Some r.
Proof.
  induction l as [|j l IH]; intro H; cbn; eauto. destruct (f j) as [x|] eqn:E; [|exfalso; apply (H j); cbn; auto].
  destruct IH as [r ->]; eauto. intros; apply H; now right.
Qed.
Lemma all_of_none : forall X (f : nat -> option X) l j, In j l -> f j = None -> all_of (map f l) = None.
Proof.
  induction l as [|k l IH]; intros j I E; [destruct I|]. destruct I as [->|I]; cbn.
  - now rewrite E.
  - rewrite (IH j I E). now destruct (f k).
Qed.

(** Adding one value completes at most one row. *)
Lemma rows_snoc : forall A n (h : hist A) i v, i < n ->
  match row n (h ++ [(i, Next v)]) (rows n h) with
  | Some _ => rows n (h ++ [(i, Next v)]) = S (rows n h)
  | None => rows n (h ++ [(i, Next v)]) = rows n h
  end.
Proof.
  intros A n h i v Hi. unfold row.
  assert (LEN : forall j, length (values j h) <= length (values j (h ++ [(i, Next v)])) <= S (length (values j h))).
  { intro j. rewrite values_app, values_next, app_length. destruct (i =? j); cbn; lia. }
  destruct (all_of _) as [l|] eqn:Q.
  - assert (ALL : forall j, j < n -> S (rows n h) <= length (values j (h ++ [(i, Next v)]))).
    { intros j Hj. destruct (nth_error (values j (h ++ [(i, Next v)])) (rows n h)) eqn:E.
      - assert (X : nth_error (values j (h ++ [(i, Next v)])) (rows n h) <> None) by congruence.
        now apply nth_error_Some in X.
      - rewrite (all_of_none _ _ _ j) in Q; [discriminate | apply in_seq; lia | auto]. }
    destruct (rows_eq A n h ltac:(lia)) as (j & Hj & E).
    destruct (rows_eq A n (h ++ [(i, Next v)]) ltac:(lia)) as (k & Hk & E').
    pose proof (rows_le A n (h ++ [(i, Next v)]) j Hj). specialize (ALL k Hk). specialize (LEN j). lia.
  - destruct (rows_eq A n (h ++ [(i, Next v)]) ltac:(lia)) as (k & Hk & E').
    pose proof (rows_le A n h k Hk). pose proof (LEN k).
    destruct (Nat.eq_dec (rows n (h ++ [(i, Next v)])) (rows n h)); auto. exfalso.
    destruct (all_of_some A (fun j => nth_error (values j (h ++ [(i, Next v)])) (rows n h)) (seq 0 n)) as [r R].
    + intros j Hj. apply in_seq in Hj. apply nth_error_Some. pose proof (rows_le A n (h ++ [(i, Next v)]) j ltac:(lia)). lia.
    + congruence.
Qed.

Section Zip.
  Context {A B : Type} (n : nat) (f : list (option A) -> res B) (D : machine B) (L : lawful D) (d0 : mst D).
  Hypothesis total : forall l, exists b, f l = Ok b.
  Notation op := (zip_op n f).
  Definition sel (l : list A) : res B := f (map Some l).
  Definition zip_R (s : comb_s (list (option A))) (h : hist A) : Prop :=
    cs_vals s = map (fun j => map Some (skipn (rows n h) (values j h))) (seq 0 n).

  Lemma front_skip : forall (l : list A) k, front (map Some (skipn k l)) = match nth_error l k with Some x => Some (Some x) | None => None end.
  Proof.
    induction l as [|x l IH]; intros [|k]; cbn; auto.
  Qed.
  Lemma all_fronts : forall (g : nat -> list A) k l,
    all_some (map front (map (fun j => map Some (skipn k (g j))) l)) =
    match all_of (map (fun j => nth_error (g j) k) l) with Some r => Some (map Some r) | None => None end.
  Proof.
    induction l as [|j l IH]; cbn; auto. rewrite front_skip. destruct (nth_error (g j) k); auto.
    rewrite IH. destruct (all_of _); auto.
  Qed.

  Lemma tl_skip : forall k (l : list A), tl (map Some (skipn k l)) = map Some (skipn (S k) l).
  Proof.
    induction k as [|k IH]; intros [|x l]; auto. cbn [skipn]. rewrite IH. reflexivity.
  Qed.

  Theorem zip_linearizable : forall progs tr c,
    gexec (istep op D (fun _ => [])) (g_init op D d0, threads op progs) tr c ->
    exists h, linearized (map (map fst) progs) tr h /\
      (g_lock (fst c) = false -> g_down (fst c) = mrun D d0 (outs (zip_out n sel) h)) /\
      (gfinished c -> g_lock (fst c) = false).
  Proof.
    apply (counting_linearizable op D (zip_out n sel) (fun _ => n) (@cs_needed _) zip_R (fun _ _ => true) comb_post L); auto.
    - intros k s i [v|x|]; cbn; eauto. destruct (cs_needed s =? 1); eauto.
    - intros s [[[v|x|] i]|x]; cbn; auto. destruct (all_some _) as [l|]; auto.
      destruct (total l) as [b ->]. reflexivity.
    - unfold zip_R. cbn. replace (rows n []) with 0.
      + assert (X : forall m a, repeat (@nil (option A)) m = map (fun j => map Some (skipn 0 (values j []))) (seq a m)).
        { clear. induction m as [|m IH]; intro a; cbn; auto. f_equal. apply IH. }
        apply X.
      + unfold rows. clear. destruct n as [|m]; auto. cbn. induction (seq 1 m); auto.
    - intros s h i _ RD. cbn in RD. now apply Nat.ltb_lt in RD.
    - intros k s h i v RR Li _. cbn. reflexivity.
    - intros s h i v RR Li _ _. split; auto.
      assert (E : upd i (fun q => q ++ [Some v]) (cs_vals s) = map (fun j => map Some (skipn (rows n h) (values j (h ++ [(i, Next v)])))) (seq 0 n)).
      { rewrite RR, upd_map. apply map_ext_in. intros j Hj. apply in_seq in Hj. rewrite values_app, values_next, Nat.eqb_sym. cbn.
        destruct (i =? j); [|now rewrite app_nil_r]. rewrite skipn_app, map_app.
        pose proof (rows_le A n h j ltac:(lia)). replace (rows n h - length (values j h)) with 0 by lia. reflexivity. }
      cbn [mo_body zip_op comb_post cs_vals cs_needed]. rewrite E, all_fronts. unfold zip_out.
      pose proof (rows_snoc A n h i v Li) as RS. unfold row in *.
      destruct (all_of (map (fun j => nth_error (values j (h ++ [(i, Next v)])) (rows n h)) (seq 0 n))) as [l|]; rewrite RS.
      + unfold sel. destruct (total (map Some l)) as [b ->]. eexists. rewrite (proj2 (Nat.ltb_lt _ _)) by lia.
        split; [reflexivity|]. split; auto.
        unfold zip_R. cbn [cs_vals]. rewrite map_map, RS. apply map_ext. intro j.
        apply tl_skip.
      + eexists. rewrite (proj2 (Nat.ltb_ge _ _)) by lia. split; [reflexivity|]. split; auto. unfold zip_R. cbn [cs_vals]. now rewrite RS.
    - intros k s i. eexists. split; [reflexivity|]. split; auto. intros h RR _. split; auto.
      unfold zip_R in *. cbn. rewrite RR. apply map_ext. intro j. rewrite values_done.
      replace (rows n (h ++ [(i, Done)])) with (rows n h); auto. unfold rows. do 2 f_equal.
      + destruct n as [|m]; auto. cbn [seq map]. rewrite values_done.
        assert (X : forall l, map (fun j => length (values j (h ++ [(i, Done)]))) l = map (fun j => length (values j h)) l).
        { intro l. apply map_ext. intro. now rewrite values_done. }
        now rewrite X.
  Qed.
End Zip.
