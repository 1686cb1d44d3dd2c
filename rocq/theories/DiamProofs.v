(** What the operators make of branches that share their source. *)
From Verif Require Import Base Machine MachineProofs MultiSpec MultiModel MultiLin MultiCount MultiProofs MultiSeq MultiProps.
From Verif Require Import SchedSpec SchedModel FairSpec FairModel FairProofs FairHist TreeSpec TreeModel TreeEnd DiamSpec DiamModel.
Open Scope nat_scope.

(** Of the terminal events only the first one counts. *)
Lemma run_again : forall B (M : machine B), lawful M -> forall l x k s, mrun M s (l ++ repeat (Err x) (S k)) = mrun M s (l ++ [Err x]).
Proof.
  intros B M L l x k s. rewrite !mrun_app. cbn [repeat]. rewrite !mrun_cons. rewrite mrun_dead; auto. now apply law_term.
Qed.

(** A round that says something only at its end. *)
Section Rounds.
  Context {A B : Type} (out : hist A -> nat -> ev A -> list (ev B)).
  Lemma outs_last : forall past (h : hist A) i e (last : list (ev B)),
    (forall a j x b, h = a ++ (j, x) :: b -> out (past ++ a) j x = []) -> out (past ++ h) i e = last ->
    outs_from out past (h ++ [(i, e)]) = last.
  Proof.
    intros past h i e last H E. rewrite outs_from_app. cbn [outs_from]. rewrite E, app_nil_r.
    replace (outs_from out past h) with (@nil (ev B)); auto. symmetry.
    assert (X : forall b a, h = a ++ b -> outs_from out (past ++ a) b = []).
    { induction b as [|(j, x) b IH]; intros a Eq; auto. cbn [outs_from]. rewrite (H _ _ _ _ Eq). cbn [app]. rewrite <- app_assoc. apply IH. rewrite Eq, <- app_assoc. reflexivity. }
    specialize (X h [] eq_refl). now rewrite app_nil_r in X.
  Qed.
  (** A round of errors. *)
  Lemma outs_err : forall x (l : list nat) past, (forall p i, out p i (Err x) = [Err x]) -> outs_from out past (map (fun j => (j, Err x)) l) = repeat (Err x) (length l).
  Proof. intros x l past H. revert past. induction l as [|j l IH]; intro past; auto. cbn [map outs_from length repeat]. rewrite H, IH. reflexivity. Qed.
End Rounds.

Section Shared.
  Context {V A : Type} (f : nat -> V -> A) (order : list nat) (ND : NoDup order).
  Notation told := (told f).
  Notation calls := (shared_calls f order).

  Lemma calls_app : forall a b, calls (a ++ b) = calls a ++ calls b.
  Proof. intros. apply flat_map_app. Qed.
  Lemma proj_told : forall j e l, NoDup l -> proj j (told l e) = if existsb (Nat.eqb j) l then [branch f j e] else [].
  Proof.
    intros j e. induction l as [|i l IH]; intro N; auto. inversion N as [|? ? NI N']; subst. unfold DiamModel.told, proj in *. cbn [map flat_map fst snd existsb].
    rewrite (Nat.eqb_sym j i). destruct (Nat.eqb_spec i j); cbn [orb app]; [|auto]. subst i. rewrite IH by auto.
    replace (existsb (Nat.eqb j) l) with false; auto. symmetry. apply not_true_iff_false. intro T. apply existsb_exists in T. destruct T as (x & I & E). apply Nat.eqb_eq in E. now subst x.
  Qed.
  Lemma mem : forall j l, In j l -> existsb (Nat.eqb j) l = true.
  Proof. intros j l I. apply existsb_exists. exists j. split; auto. apply Nat.eqb_refl. Qed.
  Lemma not_mem : forall j l, ~ In j l -> existsb (Nat.eqb j) l = false.
  Proof. intros j l I. apply not_true_iff_false. intro T. apply existsb_exists in T. destruct T as (x & I2 & E). apply Nat.eqb_eq in E. now subst x. Qed.
  Lemma proj_calls : forall es j, proj j (calls es) = if existsb (Nat.eqb j) order then map (branch f j) es else [].
  Proof.
    induction es as [|e es IH]; intro j.
    - cbn. now destruct (existsb _ _).
    - change (e :: es) with ([e] ++ es). rewrite calls_app, proj_app, IH. unfold shared_calls. cbn [flat_map]. rewrite app_nil_r, proj_told by auto.
      destruct (existsb _ _); reflexivity.
  Qed.
  Definition grammar (es : list (ev V)) : Prop := exists vs t, es = map Next vs ++ t /\ length t <= 1 /\ Forall (fun e => is_term e = true) t.
  Lemma clean_calls : forall vs t, length t <= 1 -> forall j, clean (proj j (calls (map Next vs ++ t))).
  Proof.
    intros vs t L j. rewrite proj_calls. destruct (existsb _ _).
    - exists (map (branch f j) (map Next vs)), (map (branch f j) t). rewrite map_app, map_length. split; auto. split; auto.
      rewrite map_map. apply Forall_forall. intros e I. apply in_map_iff in I. destruct I as (v & <- & _). reflexivity.
    - exists [], []. auto.
  Qed.
  Lemma values_calls : forall vs j, In j order -> values j (calls (map Next vs)) = map (f j) vs.
  Proof.
    intros vs j I. rewrite values_proj, proj_calls, mem by auto. rewrite map_map. cbn [branch].
    rewrite <- (map_map (f j) Next). apply nexts_map.
  Qed.
  Lemma values_told : forall j v l, NoDup l -> values j (told l (Next v)) = if existsb (Nat.eqb j) l then [f j v] else [].
  Proof. intros. rewrite values_proj, proj_told by auto. now destruct (existsb _ _). Qed.
  Lemma values_now : forall vs v j l, NoDup l -> In j order -> values j (calls (map Next vs) ++ told l (Next v)) = map (f j) vs ++ if existsb (Nat.eqb j) l then [f j v] else [].
  Proof. intros. rewrite values_app, values_calls, values_told; auto. Qed.
  Lemma completed_now : forall vs j l, NoDup l -> completed j (calls (map Next vs) ++ told l Done) = existsb (Nat.eqb j) l.
  Proof.
    intros vs j l N. rewrite completed_proj, proj_app, proj_calls, proj_told, existsb_app by auto.
    replace (existsb _ (if existsb (Nat.eqb j) order then _ else _)) with false; [now destruct (existsb (Nat.eqb j) l)|].
    symmetry. destruct (existsb (Nat.eqb j) order); auto. rewrite map_map. induction vs; auto.
  Qed.
  Lemma latest_now : forall vs u v j l, NoDup l -> In j order -> latest j (calls (map Next (vs ++ [u])) ++ told l (Next v)) = Some (f j (if existsb (Nat.eqb j) l then v else u)).
  Proof.
    intros vs u v j l N I. unfold latest. rewrite values_now by auto. rewrite map_app. destruct (existsb _ l).
    - rewrite rev_app_distr. reflexivity.
    - rewrite app_nil_r, rev_app_distr. reflexivity.
  Qed.
  Lemma latest_first : forall v j l, NoDup l -> In j order -> latest j (told l (Next v)) = if existsb (Nat.eqb j) l then Some (f j v) else None.
  Proof. intros v j l N I. unfold latest. rewrite values_told by auto. now destruct (existsb _ l). Qed.
  Lemma told_app : forall a b e, told (a ++ b) e = told a e ++ told b e.
  Proof. intros. apply map_app. Qed.
  Lemma told_split : forall l e a j x b, told l e = a ++ (j, x) :: b -> exists a' b', l = a' ++ j :: b' /\ a = told a' e /\ x = branch f j e.
  Proof.
    intros l e a j x b E. unfold DiamModel.told in E. apply map_eq_app in E. destruct E as (a' & r & -> & Ea & Er). destruct r as [|j' b']; [discriminate|].
    cbn [map] in Er. injection Er as E1 E2 E3. subst j'. exists a', b'. auto.
  Qed.
  Lemma told_err : forall l x, told l (Err x) = map (fun j => (j, Err x)) l.
  Proof. reflexivity. Qed.
  Lemma calls_ids : forall es x, In x (calls es) -> In (fst x) order.
  Proof. intros es x I. apply in_flat_map in I. destruct I as (e & _ & I). apply in_map_iff in I. destruct I as (j & <- & I). exact I. Qed.
End Shared.

Lemma first_nodup : forall X (a : list X) x b, NoDup (a ++ x :: b) -> NoDup a /\ NoDup (a ++ [x]) /\ ~ In x a.
Proof.
  intros X a x b N. assert (M : ~ In x (a ++ b)) by now apply NoDup_remove_2 in N.
  assert (NA : NoDup a) by (clear M; induction a as [|y a IH]; [constructor|]; inversion N; subst; constructor; [intro I; apply H1; apply in_or_app; now left|auto]).
  assert (MA : ~ In x a) by (intro I; apply M; apply in_or_app; now left). split; auto. split; auto.
  apply NoDup_rev in NA. rewrite <- (rev_involutive (a ++ [x])). apply NoDup_rev. rewrite rev_app_distr. cbn. constructor; auto. intro I. apply MA. now apply in_rev.
Qed.

(** ** The lifted operators *)
Section Lifted.
  Context {V A B : Type} (f : nat -> V -> A) (n : nat).
  Notation order := (arguments_first n).
  Notation calls := (shared_calls f order).
  Notation told := (told f).
  Lemma order_nodup : NoDup order.
  Proof.
    unfold arguments_first. pose proof (NoDup_rev (seq_NoDup n 1)) as N.
    rewrite <- (rev_involutive (seq 1 n ++ [0])). apply NoDup_rev. rewrite rev_app_distr. cbn. constructor; auto. intro I. apply in_rev in I. apply in_seq in I. lia.
  Qed.
  Lemma order_in : forall j, In j order <-> j <= n.
  Proof. intro j. unfold arguments_first. rewrite in_app_iff, in_seq. cbn. lia. Qed.
  Lemma order_len : length order = S n.
  Proof. unfold arguments_first. rewrite app_length, seq_length. cbn. lia. Qed.

  Lemma all_of_map : forall X (g : nat -> option X) (h : nat -> X) l, (forall j, In j l -> g j = Some (h j)) -> all_of (map g l) = Some (map h l).
  Proof. induction l as [|j l IH]; intro H; auto. cbn. rewrite (H j (or_introl eq_refl)), IH; auto. intros. apply H. now right. Qed.
  Lemma all_of_miss : forall X (g : nat -> option X) l j, In j l -> g j = None -> all_of (map g l) = None.
  Proof.
    induction l as [|i l IH]; intros j I E; [destruct I|]. cbn. destruct I as [->|I]; [now rewrite E|]. rewrite (IH j I E). now destruct (g i).
  Qed.
  Lemma all_done_now : forall vs l, NoDup l -> all_done (S n) (calls (map Next vs) ++ told l Done) = forallb (fun j => existsb (Nat.eqb j) l) (seq 0 (S n)).
  Proof.
    intros vs l N. unfold all_done. generalize (seq 0 (S n)). intro s. induction s as [|j s IH]; auto. cbn [forallb]. rewrite completed_now by (auto using order_nodup). now rewrite IH.
  Qed.
  Lemma order_cover : forallb (fun j => existsb (Nat.eqb j) order) (seq 0 (S n)) = true.
  Proof. apply forallb_forall. intros j I. apply in_seq in I. apply mem. apply order_in. lia. Qed.
  Lemma not_cover : forall l, ~ In 0 l -> forallb (fun j => existsb (Nat.eqb j) l) (seq 0 (S n)) = false.
  Proof. intros l H. cbn [seq forallb]. now rewrite (not_mem 0 l H). Qed.
  (** A part of the arguments does not contain the main branch. *)
  Lemma part : forall a j b, seq 1 n = a ++ j :: b -> NoDup a /\ NoDup (a ++ [j]) /\ ~ In 0 a /\ ~ In 0 (a ++ [j]) /\ 1 <= j <= n.
  Proof.
    intros a j b E. pose proof (seq_NoDup n 1) as N. rewrite E in N. destruct (first_nodup _ _ _ _ N) as (N1 & N2 & _).
    assert (Z : forall i, In i (a ++ [j]) -> 1 <= i <= n).
    { intros i I. assert (I2 : In i (seq 1 n)) by (rewrite E; apply in_app_iff; apply in_app_iff in I; destruct I as [I|[<-|[]]]; [left|right; left]; auto). apply in_seq in I2. lia. }
    repeat split; auto; try (intro I; specialize (Z 0); rewrite in_app_iff in Z; tauto || (specialize (Z (or_introl I)); lia)); try (apply Z; apply in_or_app; right; now left).
    intro I. specialize (Z 0 I). lia.
  Qed.
  Lemma told_order : forall e, told order e = told (seq 1 n) e ++ [(0, branch f 0 e)].
  Proof. intro e. unfold arguments_first. now rewrite told_app. Qed.
  Lemma told_done : forall a j, told a Done ++ [(j, Done)] = told (a ++ [j]) Done.
  Proof. intros. now rewrite told_app. Qed.
  Lemma told_next : forall a j v, told a (Next v) ++ [(j, Next (f j v))] = told (a ++ [j]) (Next v).
  Proof. intros. now rewrite told_app. Qed.

  Lemma live_calls : forall vs t, length t <= 1 -> live (calls (map Next vs ++ t)) = calls (map Next vs ++ t).
  Proof. intros. apply live_clean. apply clean_calls; auto using order_nodup. Qed.

  (** The terminal round. *)
  Definition over (t : list (ev V)) : list (ev B) := match t with [] => [] | Err x :: _ => repeat (Err x) (S n) | _ => [Done] end.
  Section Terminal.
    Variable out : hist A -> nat -> ev A -> list (ev B).
    Hypothesis OE : forall x p i, out p i (Err x) = [Err x].
    Hypothesis OD : forall vs, (forall a j b, seq 1 n = a ++ j :: b -> out (calls (map Next vs) ++ told a Done) j Done = []) /\
                             out (calls (map Next vs) ++ told (seq 1 n) Done) 0 Done = [Done].
    Lemma outs_over : forall vs t, length t <= 1 -> Forall (fun e => is_term e = true) t -> outs_from out (calls (map Next vs)) (calls t) = over t.
    Proof.
      intros vs t LT T. destruct t as [|e [|? ?]]; cbn in LT; try lia; auto. inversion T; subst. unfold shared_calls at 2. cbn [flat_map]. rewrite app_nil_r.
      destruct e as [v|x|]; cbn in *; try discriminate.
      - rewrite told_err, outs_err by auto. now rewrite order_len.
      - rewrite told_order. destruct (OD vs) as (O1 & O2). apply outs_last; auto. intros a j x b E. apply told_split in E. destruct E as (a' & b' & E & -> & ->). cbn [branch]. eauto.
    Qed.
    Lemma outs_whole : forall (res : list V -> list (ev B)), res [] = [] ->
      (forall vs v, res (vs ++ [v]) = res vs ++ outs_from out (calls (map Next vs)) (told order (Next v))) ->
      forall vs t, length t <= 1 -> Forall (fun e => is_term e = true) t -> outs out (calls (map Next vs ++ t)) = res vs ++ over t.
    Proof.
      intros res R0 R1 vs t LT T. unfold outs. rewrite live_calls by auto. rewrite calls_app, outs_from_app. cbn [app]. rewrite outs_over by auto. f_equal.
      clear t LT T. induction vs as [|v vs IH] using rev_ind; [now rewrite R0|]. rewrite map_app, calls_app, outs_from_app, IH. cbn [app].
      rewrite R1. unfold shared_calls at 2. cbn [map flat_map]. now rewrite app_nil_r.
    Qed.
  End Terminal.
  Lemma all_done_rounds : forall (out : hist A -> nat -> ev A -> list (ev B)), (forall p i, out p i Done = if all_done (S n) (p ++ [(i, Done)]) then [Done] else []) ->
    forall vs, (forall a j b, seq 1 n = a ++ j :: b -> out (calls (map Next vs) ++ told a Done) j Done = []) /\
               out (calls (map Next vs) ++ told (seq 1 n) Done) 0 Done = [Done].
  Proof.
    intros out H vs. split.
    - intros a j b E. destruct (part a j b E) as (N1 & N2 & _ & M & _). rewrite H, <- app_assoc, (told_done a j), all_done_now, not_cover by auto. reflexivity.
    - rewrite H, <- app_assoc, (told_done (seq 1 n) 0). fold order. rewrite all_done_now, order_cover by apply order_nodup. reflexivity.
  Qed.

  (** zip *)
  Lemma rows_some : forall vs v l, NoDup l -> forallb (fun j => existsb (Nat.eqb j) l) (seq 0 (S n)) = false ->
    rows (S n) (calls (map Next vs) ++ told l (Next v)) = length vs.
  Proof.
    intros vs v l N H. set (h := calls (map Next vs) ++ told l (Next v)).
    assert (LEN : forall j, j <= n -> length (values j h) = length vs + if existsb (Nat.eqb j) l then 1 else 0).
    { intros j Hj. unfold h. rewrite values_now; auto using order_nodup; [|now apply order_in]. rewrite app_length, map_length. now destruct (existsb _ l). }
    destruct (rows_eq A (S n) h ltac:(lia)) as (j & Hj & E). rewrite E. rewrite LEN in E by lia. rewrite LEN by lia. destruct (existsb (Nat.eqb j) l) eqn:Q; [|lia]. exfalso.
    assert (X : forallb (fun j => existsb (Nat.eqb j) l) (seq 0 (S n)) = true); [|congruence]. apply forallb_forall. intros i I. apply in_seq in I.
    pose proof (rows_le A (S n) h i ltac:(lia)) as R. rewrite LEN in R by lia. destruct (existsb (Nat.eqb i) l); auto. lia.
  Qed.
  Lemma rows_every : forall vs v, rows (S n) (calls (map Next vs) ++ told order (Next v)) = S (length vs).
  Proof.
    intros vs v. destruct (rows_eq A (S n) (calls (map Next vs) ++ told order (Next v)) ltac:(lia)) as (j & Hj & E). rewrite E.
    assert (I : In j order) by (apply order_in; lia). rewrite values_now, mem by auto using order_nodup. rewrite app_length, map_length. cbn. lia.
  Qed.
  Lemma zip_diamond : forall (g : list (option A) -> B) vs t, length t <= 1 -> Forall (fun e => is_term e = true) t ->
    outs (zip_out (S n) (fun l => Ok (g (map Some l)))) (calls (map Next vs ++ t)) = map Next (diamond_zip f n (fun l => g (map Some l)) vs) ++ over t.
  Proof.
    intros g. apply (outs_whole _ (fun _ _ _ => eq_refl) (all_done_rounds _ (fun _ _ => eq_refl)) (fun vs => map Next (diamond_zip f n (fun l => g (map Some l)) vs))); auto.
    intros vs v. unfold diamond_zip. rewrite map_app, (map_app Next). f_equal. symmetry.
    rewrite told_order. apply outs_last.
    - intros a j x b E. apply told_split in E. destruct E as (a' & b' & E & -> & ->). destruct (part _ _ _ E) as (N1 & N2 & M1 & M2 & _). unfold zip_out. cbn [branch].
      rewrite <- app_assoc, (told_next a' j v), !rows_some by auto using not_cover. now rewrite Nat.ltb_irrefl.
    - unfold zip_out. cbn [branch]. rewrite <- app_assoc, (told_next (seq 1 n) 0 v). fold order. rewrite rows_every, rows_some; [|apply seq_NoDup|apply not_cover; rewrite in_seq; lia].
      rewrite (proj2 (Nat.ltb_lt _ _)) by lia. unfold row. rewrite (all_of_map _ _ (fun j => f j v)); auto. intros j I. apply in_seq in I.
      assert (IO : In j order) by (apply order_in; lia). rewrite values_now, mem by auto using order_nodup. rewrite nth_error_app2, map_length, Nat.sub_diag by (rewrite map_length; lia). reflexivity.
  Qed.

  (** with_latest_from *)
  Lemma latest_new : forall vs v j l, NoDup l -> In j order -> In j l -> latest j (calls (map Next vs) ++ told l (Next v)) = Some (f j v).
  Proof. intros vs v j l N I IL. unfold latest. rewrite values_now, mem by auto using order_nodup. rewrite rev_app_distr. reflexivity. Qed.
  Lemma latest_diamond : forall (g : A -> list A -> B) vs t, length t <= 1 -> Forall (fun e => is_term e = true) t ->
    outs (with_latest_out n (fun v l => Ok (g v l))) (calls (map Next vs ++ t)) = map Next (diamond_latest f n g vs) ++ over t.
  Proof.
    intros g. apply (outs_whole _ (fun _ _ _ => eq_refl)) with (res := fun vs => map Next (diamond_latest f n g vs)); auto.
    - intro vs. split; auto. intros a j b E. destruct (part a j b E) as (_ & _ & _ & _ & J). unfold with_latest_out. now rewrite (proj2 (Nat.eqb_neq _ _)) by lia.
    - intros vs v. unfold diamond_latest. rewrite map_app, (map_app Next). f_equal. symmetry.
      rewrite told_order. apply outs_last.
      + intros a j x b E. apply told_split in E. destruct E as (a' & b' & E & -> & ->). destruct (part _ _ _ E) as (_ & _ & _ & _ & J). unfold with_latest_out. cbn [branch]. now rewrite (proj2 (Nat.eqb_neq _ _)) by lia.
      + unfold with_latest_out. cbn [branch]. rewrite (proj2 (Nat.eqb_eq 0 0)) by auto. rewrite (all_of_map _ _ (fun j => f j v)); auto. intros j I.
        apply latest_new; auto using seq_NoDup. apply order_in. apply in_seq in I. lia.
  Qed.

  (** combine_latest *)
  Lemma skip_order : forall k, k <= n -> exists j, skipn k order = j :: skipn (S k) order /\ firstn (S k) order = firstn k order ++ [j].
  Proof.
    intros k Hk. destruct (skipn k order) as [|j r] eqn:E.
    - pose proof (skipn_length k order) as Q. rewrite E, order_len in Q. cbn [length] in Q. lia.
    - exists j. assert (F : order = firstn k order ++ j :: r) by (rewrite <- E; symmetry; apply firstn_skipn).
      assert (K : length (firstn k order) = k) by (rewrite firstn_length, order_len; lia).
      split.
      + f_equal. rewrite F at 1. rewrite skipn_app, K. rewrite skipn_all2 by lia. replace (S k - k) with 1 by lia. reflexivity.
      + rewrite F at 1. rewrite firstn_app, K. rewrite firstn_all2 by lia. replace (S k - k) with 1 by lia. reflexivity.
  Qed.
  Lemma in_first : forall k j, k <= S n -> j <= n -> existsb (Nat.eqb j) (firstn k order) = (1 <=? j) && (j <=? k) || (k =? S n).
  Proof.
    intros k j Hk Hj. unfold arguments_first. destruct (Nat.eqb_spec k (S n)) as [->|NE].
    - rewrite orb_true_r. rewrite firstn_all2 by (rewrite app_length, seq_length; cbn; lia). apply mem. apply order_in. exact Hj.
    - rewrite orb_false_r. rewrite firstn_app, seq_length. replace (k - n) with 0 by lia. cbn [firstn]. rewrite app_nil_r.
      assert (E : firstn k (seq 1 n) = seq 1 k).
      { replace n with (k + (n - k)) by lia. rewrite seq_app, firstn_app, seq_length, Nat.sub_diag. rewrite firstn_all2 by (rewrite seq_length; lia). cbn. apply app_nil_r. }
      rewrite E. destruct ((1 <=? j) && (j <=? k)) eqn:Q.
      + apply andb_true_iff in Q. rewrite !Nat.leb_le in Q. apply mem. apply in_seq. lia.
      + apply not_mem. rewrite in_seq. intro I. apply andb_false_iff in Q. rewrite !Nat.leb_gt in Q. lia.
  Qed.
  Lemma first_part_nodup : forall k, NoDup (firstn k order).
  Proof.
    intro k. pose proof order_nodup as N. rewrite <- (firstn_skipn k order) in N. revert N. generalize (firstn k order) as a, (skipn k order) as b.
    intros a b. induction a as [|x a IH]; intro N; [constructor|]. inversion N; subst. constructor; auto. intro I. apply H1. apply in_or_app. now left.
  Qed.
  Lemma combine_round : forall (g : list A -> B) vs u v m k, k + m = S n ->
    outs_from (combine_latest_out (S n) (fun l => Ok (g l))) (calls (map Next (vs ++ [u])) ++ told (firstn k order) (Next v)) (told (skipn k order) (Next v)) =
    map (fun k => Next (g (mixed f n u v k))) (seq (S k) m).
  Proof.
    intros g vs u v m. induction m as [|m IH]; intros k Hk.
    - rewrite skipn_all2 by (rewrite order_len; lia). reflexivity.
    - destruct (skip_order k) as (j & E1 & E2); [lia|]. rewrite E1. unfold DiamModel.told at 2. cbn [map outs_from seq].
      change (map (fun j0 => (j0, branch f j0 (Next v))) (skipn (S k) order)) with (told (skipn (S k) order) (Next v)).
      change (branch f j (Next v)) with (Next (f j v)). rewrite <- app_assoc, (told_next (firstn k order) j v), <- E2, IH by lia.
      unfold combine_latest_out at 1. rewrite <- app_assoc, (told_next (firstn k order) j v), <- E2.
      rewrite (all_of_map _ _ (fun j => f j (if (1 <=? j) && (j <=? S k) || (S k =? S n) then v else u))).
      + reflexivity.
      + intros i I. apply in_seq in I. rewrite <- in_first by lia. apply latest_now; auto using order_nodup, first_part_nodup. apply order_in. lia.
  Qed.
  Lemma last_cons : forall X (l : list X) a b, last (a :: l) b = last l a.
  Proof. induction l as [|x l IH]; intros a b; auto. change (last (a :: x :: l) b) with (last (x :: l) b). rewrite IH. cbn [last]. destruct l; auto. rewrite <- (IH x a). reflexivity. Qed.
  Lemma combine_from_snoc : forall (g : list A -> B) vs u v, diamond_combine_from f n g u (vs ++ [v]) =
    diamond_combine_from f n g u vs ++ map (fun k => g (mixed f n (last vs u) v k)) (seq 1 (S n)).
  Proof.
    intros g. induction vs as [|w vs IH]; intros u v; cbn [app diamond_combine_from].
    - now rewrite app_nil_r.
    - rewrite IH, <- app_assoc. now rewrite last_cons.
  Qed.
  Lemma combine_diamond : forall (g : list A -> B) vs t, length t <= 1 -> Forall (fun e => is_term e = true) t ->
    outs (combine_latest_out (S n) (fun l => Ok (g l))) (calls (map Next vs ++ t)) = map Next (diamond_combine f n g vs) ++ over t.
  Proof.
    intros g. apply (outs_whole _ (fun _ _ _ => eq_refl) (all_done_rounds _ (fun _ _ => eq_refl)) (fun vs => map Next (diamond_combine f n g vs))); auto.
    intros vs v. destruct vs as [|u vs].
    - cbn [app diamond_combine diamond_combine_from map]. rewrite told_order. symmetry. apply (outs_last _ []).
      + intros a j x b E. apply told_split in E. destruct E as (a' & b' & E & -> & ->). destruct (part _ _ _ E) as (N1 & N2 & M1 & M2 & _). unfold combine_latest_out. cbn [branch app].
        rewrite (told_next a' j v). rewrite (all_of_miss _ _ (seq 0 (S n)) 0); auto; [apply in_seq; lia|]. rewrite latest_first with (order := order); auto; [|apply order_in; lia]. now rewrite not_mem.
      + unfold combine_latest_out. cbn [branch app]. rewrite (told_next (seq 1 n) 0 v). fold order.
        rewrite (all_of_map _ _ (fun j => f j v)); auto. intros j I. apply in_seq in I. assert (IO : In j order) by (apply order_in; lia).
        rewrite latest_first with (order := order); auto using order_nodup. now rewrite mem.
    - cbn [app diamond_combine]. rewrite combine_from_snoc. cbn [map app]. rewrite map_app. do 2 f_equal. rewrite map_map. symmetry.
      assert (E : exists vs', u :: vs = vs' ++ [last vs u]) by (exists (removelast (u :: vs)); rewrite <- (last_cons _ vs u u); apply app_removelast_last; discriminate).
      destruct E as (vs' & E). pose proof (combine_round g vs' (last vs u) v (S n) 0 eq_refl) as C. cbn [firstn skipn] in C. unfold DiamModel.told at 1 in C. cbn [map] in C. rewrite app_nil_r, <- E in C. exact C.
  Qed.
End Lifted.

(** ** merge_with *)
Section Merge.
  Context {V A : Type} (f : nat -> V -> A) (n : nat).
  Notation order := (main_first n).
  Notation calls := (shared_calls f order).
  Notation told := (told f).
  Notation shift := (map (fun x : nat * ev A => (S (fst x), inner (snd x)))).
  Definition opening : hist (unit + A) := repeat (0, Next (inl tt)) (S n) ++ [(0, Done)].
  Lemma shared_merge_eq : forall es, shared_merge f n es = opening ++ shift (calls es).
  Proof. intro es. unfold shared_merge, opening. now rewrite <- app_assoc. Qed.

  Lemma proj_shift : forall (h : hist A) j, proj (S j) (shift h) = map inner (proj j h).
  Proof.
    intros h j. unfold proj. induction h as [|(i, e) h IH]; auto. cbn [map flat_map fst snd]. change (S i =? S j) with (i =? j).
    rewrite map_app, <- IH. destruct (i =? j); reflexivity.
  Qed.
  Lemma proj_shift0 : forall h : hist A, proj 0 (shift h) = [].
  Proof. intro h. unfold proj. induction h as [|(i, e) h IH]; auto. Qed.
  Lemma proj_opens : forall k j, proj (S j) (repeat (0, @Next (unit + A) (inl tt)) k) = [] /\ proj 0 (repeat (0, @Next (unit + A) (inl tt)) k) = repeat (Next (inl tt)) k.
  Proof. unfold proj. induction k as [|k IH]; intro j; auto. cbn. destruct (IH j) as (E1 & E2). split; auto. now rewrite E2. Qed.
  Lemma proj_opening : forall j, proj (S j) opening = [] /\ proj 0 opening = repeat (Next (inl tt)) (S n) ++ [Done].
  Proof. intro j. unfold opening. rewrite !proj_app. destruct (proj_opens (S n) j) as (-> & ->). auto. Qed.
  Lemma opened_shift : forall h : hist A, opened (shift h) = 0.
  Proof. intro h. unfold opened. induction h as [|(i, e) h IH]; auto. Qed.
  Lemma opened_app : forall a b : hist (unit + A), opened (a ++ b) = opened a + opened b.
  Proof. intros. unfold opened. now rewrite filter_app, app_length. Qed.
  Lemma opened_opening : opened opening = S n.
  Proof. unfold opening. rewrite opened_app. cbn [opened filter fst snd length]. unfold opened. cbn. rewrite Nat.add_0_r. f_equal. induction n; cbn; auto. Qed.

  Lemma main_in : forall j, In j order <-> j <= n.
  Proof. intro j. unfold main_first. rewrite in_seq. lia. Qed.
  Lemma main_nodup : NoDup order.
  Proof. apply seq_NoDup. Qed.

  Lemma merge_live : forall vs t, length t <= 1 -> live (shared_merge f n (map Next vs ++ t)) = shared_merge f n (map Next vs ++ t).
  Proof.
    intros vs t LT. apply live_clean. intro i. rewrite shared_merge_eq, proj_app. destruct i as [|j].
    - rewrite proj_shift0, app_nil_r. destruct (proj_opening 0) as (_ & ->). exists (repeat (Next (inl tt)) (S n)), [Done]. repeat split; auto. generalize (S n). intro k. induction k; cbn; auto.
    - rewrite proj_shift. destruct (proj_opening j) as (-> & _). cbn [app]. destruct (clean_calls f order main_nodup vs t LT j) as (a & b & -> & Fa & Lb).
      exists (map inner a), (map inner b). rewrite map_app, map_length. repeat split; auto. apply Forall_forall. intros e I. apply in_map_iff in I. destruct I as (e' & <- & I).
      rewrite Forall_forall in Fa. specialize (Fa e' I). destruct e'; auto.
  Qed.
  Lemma merge_opening : outs_from (@merge_out A) [] opening = [].
  Proof.
    unfold opening. rewrite outs_from_app. replace (outs_from merge_out [] (repeat (0, Next (inl tt)) (S n))) with (@nil (ev A)).
    - cbn [app outs_from]. rewrite app_nil_r. unfold merge_out.
      match goal with |- (if ?b then _ else _) = _ => replace b with false; auto end. symmetry.
      change (repeat (0, Next (inl tt)) (S n) ++ [(0, Done)]) with opening. rewrite opened_opening. cbn [seq forallb].
      rewrite (completed_proj _ 1). destruct (proj_opening 0) as (-> & _). cbn. apply andb_false_r.
    - symmetry. generalize (S n) as k, (@nil (nat * ev (unit + A))) as p. induction k as [|k IH]; intro p; auto. cbn [repeat outs_from]. now rewrite IH.
  Qed.
  Lemma merge_values : forall v l p, outs_from (@merge_out A) p (shift (told l (Next v))) = map (fun j => Next (f j v)) l.
  Proof. intro v. induction l as [|j l IH]; intro p; auto. cbn [DiamModel.told map outs_from fst snd branch inner]. unfold DiamModel.told in IH. rewrite IH. reflexivity. Qed.
  Lemma merge_all_values : forall vs p, outs_from (@merge_out A) p (shift (calls (map Next vs))) = map Next (diamond_merge f n vs).
  Proof.
    induction vs as [|v vs IH]; intro p; auto. unfold shared_calls, diamond_merge. cbn [map flat_map]. rewrite map_app, outs_from_app, merge_values.
    unfold shared_calls in IH. rewrite IH. rewrite map_app, map_map. reflexivity.
  Qed.
  Definition merge_over (t : list (ev V)) : list (ev A) := match t with [] => [] | Err x :: _ => repeat (Err x) (S n) | _ => [Done] end.
  Lemma merge_completed : forall vs l j, NoDup l -> completed (S j) (opening ++ shift (calls (map Next vs) ++ told l Done)) = existsb (Nat.eqb j) l.
  Proof.
    intros vs l j N. rewrite completed_proj, proj_app, proj_shift. destruct (proj_opening j) as (-> & _). cbn [app].
    rewrite <- (completed_now f order main_nodup vs j l N). rewrite completed_proj. generalize (proj j (calls (map Next vs) ++ told l Done)). intro q. induction q as [|e q IH]; auto. cbn. rewrite IH. destruct e; auto.
  Qed.
  Lemma merge_done : forall vs l, NoDup l -> let h := opening ++ shift (calls (map Next vs) ++ told l Done) in
    forallb (fun j => completed j h) (seq 0 (S (opened h))) = forallb (fun j => existsb (Nat.eqb j) l) order.
  Proof.
    intros vs l N h. unfold h at 2. rewrite opened_app, opened_shift, opened_opening, Nat.add_0_r. unfold main_first. change (seq 0 (S (S n))) with (0 :: seq 1 (S n)). cbn [forallb].
    replace (completed 0 h) with true.
    - cbn [andb]. rewrite <- seq_shift. generalize (seq 0 (S n)). intro s. induction s as [|j s IH]; auto. cbn [map forallb]. unfold h at 1. rewrite merge_completed by auto. now rewrite IH.
    - symmetry. unfold h. rewrite completed_proj, proj_app, proj_shift0, app_nil_r. destruct (proj_opening 0) as (_ & ->). rewrite existsb_app. cbn. apply orb_true_r.
  Qed.
  Lemma merge_diamond : forall vs t, length t <= 1 -> Forall (fun e => is_term e = true) t ->
    outs merge_out (shared_merge f n (map Next vs ++ t)) = map Next (diamond_merge f n vs) ++ merge_over t.
  Proof.
    intros vs t LT T. unfold outs. rewrite merge_live by auto. rewrite shared_merge_eq, outs_from_app, merge_opening. cbn [app].
    rewrite calls_app, map_app, outs_from_app, merge_all_values. f_equal.
    destruct t as [|e [|? ?]]; cbn [length] in LT; try lia; auto. inversion T; subst. unfold shared_calls at 2. cbn [flat_map]. rewrite app_nil_r. destruct e as [v|x|]; try discriminate.
    - rewrite told_err, map_map. cbn [fst snd inner]. rewrite <- (map_map S (fun j => (j, Err x))), outs_err by auto. rewrite map_length. unfold main_first. now rewrite seq_length.
    - assert (TO : told order Done = told (seq 0 n) Done ++ [(n, Done)]) by (unfold main_first; rewrite seq_S; cbn [plus]; now rewrite told_app). rewrite TO, map_app. clear TO.
      cbn [map fst snd inner merge_over].
      pose proof main_nodup as N. unfold main_first in N. rewrite seq_S in N. cbn [plus] in N.
      apply outs_last.
      + intros a j x b E. apply map_eq_app in E. destruct E as (a0 & r & E & Ea & Er). destruct r as [|(j0, x0) b0]; [discriminate|]. cbn [map fst snd] in Er. injection Er as <- <- Eb.
        apply told_split in E. destruct E as (a' & b' & E & -> & ->). subst a. cbn [branch inner]. unfold merge_out.
        assert (NA : NoDup (a' ++ j0 :: b' ++ [n])) by (rewrite app_comm_cons, app_assoc, <- E; exact N).
        destruct (first_nodup _ _ _ _ NA) as (N1 & N2 & _).
        rewrite <- !app_assoc. change [(S j0, Done)] with (shift (told [j0] Done)). rewrite <- !map_app, <- told_app.
        pose proof (merge_done vs (a' ++ [j0]) N2) as Q. cbn zeta in Q. rewrite Q.
        match goal with |- (if ?b then _ else _) = _ => replace b with false; auto end. symmetry. apply not_true_iff_false. intro TT. rewrite forallb_forall in TT.
        specialize (TT n). rewrite (not_mem n) in TT; [discriminate TT; apply main_in; lia|].
        intro I. assert (NN : ~ In n (a' ++ j0 :: b')) by (rewrite <- E, in_seq; lia). apply NN. apply in_app_iff. apply in_app_iff in I. destruct I as [I|[<-|[]]]; [now left|right; now left].
      + unfold merge_out. rewrite <- !app_assoc. change [(S n, Done)] with (shift (told [n] Done)). rewrite <- !map_app, <- told_app.
        pose proof (merge_done vs (seq 0 n ++ [n]) N) as Q. cbn zeta in Q. rewrite Q.
        match goal with |- (if ?b then _ else _) = _ => replace b with true; auto end. symmetry. apply forallb_forall. intros j I. apply mem. unfold main_first in I. rewrite seq_S in I. exact I.
  Qed.
  Lemma merge_shared_ids : forall es i e, In (i, e) (shared_merge f n es) -> i <= S n.
  Proof.
    intros es i e I. rewrite shared_merge_eq in I. unfold opening in I. apply in_app_iff in I. destruct I as [I|I].
    - apply in_app_iff in I. destruct I as [I|[I|[]]]; [apply repeat_spec in I; injection I as -> _; lia|injection I as <- _; lia].
    - apply in_map_iff in I. destruct I as (x & E & I). injection E as <- _. apply calls_ids in I. apply main_in in I. lia.
  Qed.
End Merge.

(** ** Runs *)
Lemma run_over : forall B (D : machine B), lawful D -> forall n l V (t : list (ev V)) s, length t <= 1 ->
  mrun D s (l ++ match t with [] => [] | Err x :: _ => repeat (Err x) (S n) | _ => [Done] end) = mrun D s (l ++ terminal t).
Proof. intros B D L n l V t s LT. destruct t as [|[v|x|] [|? ?]]; cbn [length] in LT; try lia; auto. unfold terminal. now apply run_again. Qed.
Lemma ids_le : forall V A (f : nat -> V -> A) n es, Forall (fun x => fst x <= n) (shared_calls f (arguments_first n) es).
Proof. intros. apply Forall_forall. intros x I. apply calls_ids in I. now apply order_in. Qed.
