(** Finished executions of the operators with several sources, merge when everything completes,
    and flat_map. *)
From Verif Require Import Base Machine MachineProofs Concur ObserverModel ChainModel ChainProofs.
From Verif Require Import MultiSpec MultiModel MultiLin MultiCount MultiProofs MultiRace.

(** ** A finished execution has made every call *)
Definition src_of {A} (i : nat) (x : lab A) : bool := match x with Inv j _ | Ret j _ => j =? i end.
Definition called {A} (i : nat) (p : list (ev A)) : list (lab A) := flat_map (fun e => [Inv i e; Ret i e]) p.

Section Done.
  Context {A B : Type} (o : mop A B) (D : machine B).
  Notation ist := (istep o D (fun _ => @nil (nat * ev A))).

  Definition due (x : item o) : list (lab A) :=
    match x with IEv i e _ => [Inv i e; Ret i e] | IRun i e _ _ => [Ret i e] end.
  Definition own_src (x : item o) : nat := match x with IEv i _ _ | IRun i _ _ _ => i end.

  Lemma pstep_nil : forall g i e st k g' r n, pstep o D (fun _ => []) g i e st k = Some (g', r, n) -> n = [].
  Proof. apply pst_nil. Qed.

  Lemma ist_due : forall g x g' its ls, ist g x = Some (g', its, ls) ->
    ls ++ flat_map due its = due x /\ Forall (fun y => own_src y = own_src x) its.
  Proof.
    intros g [i e st|i e st k] g' its ls Q; cbn [istep] in Q.
    - inversion Q; subst. cbn. auto.
    - destruct (pstep o D (fun _ => []) g i e st k) as [[[g1 [k1|]] n]|] eqn:P; [| |discriminate];
        pose proof (pstep_nil _ _ _ _ _ _ _ _ P); subst n; inversion Q; subst; cbn; auto.
  Qed.

  Lemma flat_due : forall i p, flat_map due (map (fun x : ev A * bool => @IEv A B o i (fst x) (snd x)) p) = called i (map fst p).
  Proof. induction p as [|[e st] p IH]; cbn; auto. now rewrite IH. Qed.

  Lemma src_due : forall i x, own_src x = i -> filter (src_of i) (due x) = due x.
  Proof. intros i [j e st|j e st k]; cbn; intros ->; now rewrite Nat.eqb_refl. Qed.
  Lemma src_due_other : forall i x, own_src x <> i -> filter (src_of i) (due x) = [].
  Proof. intros i [j e st|j e st k] H; cbn in *; apply Nat.eqb_neq in H; now rewrite H. Qed.
  Lemma filter_pre : forall i (x : item o) ls its, ls ++ flat_map due its = due x -> own_src x <> i -> filter (src_of i) ls = [].
  Proof.
    intros i x ls its E N. pose proof (src_due_other i x N) as H. rewrite <- E, filter_app in H. now apply app_eq_nil in H as [H _].
  Qed.
  Lemma filter_own : forall i (x : item o) ls its, ls ++ flat_map due its = due x -> own_src x = i -> filter (src_of i) ls = ls.
  Proof.
    intros i x ls its E H. pose proof (src_due i x H) as F. rewrite <- E in F. clear - F.
    assert (A1 : forall y, In y ls -> src_of i y = true).
    { intros y I. assert (In y (filter (src_of i) (ls ++ flat_map due its))) as J by (rewrite F; apply in_or_app; now left). now apply filter_In in J. }
    clear F. induction ls as [|y ls IH]; cbn; auto. rewrite (A1 y) by now left. f_equal. apply IH. intros z I. apply A1. now right.
  Qed.

  Lemma calls_made : forall d0 progs tr c, gexec ist (g_init o D d0, threads o progs) tr c ->
    forall i, filter (src_of i) tr ++ flat_map due (nth i (snd c) []) = called i (map fst (nth i progs [])) /\
              Forall (fun x => own_src x = i) (nth i (snd c) []).
  Proof.
    intros d0 progs tr c E.
    refine (gexec_tinv ist (fun _ ts tr => forall i, filter (src_of i) tr ++ flat_map due (nth i ts []) = called i (map fst (nth i progs [])) /\ Forall (fun x => own_src x = i) (nth i ts [])) _ _ _ _ E _).
    - intros g ts1 it rest ts2 tr' g' its ls I Q i. destruct (ist_due _ _ _ _ _ Q) as (DU & SR). rewrite filter_app.
      destruct (I (length ts1)) as (I1 & I2). rewrite nth_at in I1, I2. pose proof (Forall_inv I2) as OW. apply Forall_inv_tail in I2.
      destruct (Nat.eq_dec i (length ts1)) as [->|NE].
      + rewrite nth_at. rewrite (filter_own _ _ _ _ DU OW). split.
        * rewrite <- I1. cbn [flat_map]. rewrite <- DU, flat_map_app, <- !app_assoc. reflexivity.
        * apply Forall_app. split; auto. eapply Forall_impl; [|exact SR]. cbn. intros; congruence.
      + destruct (I i) as (J1 & J2). rewrite (nth_other _ _ _ (it :: rest)) by auto. rewrite (filter_pre i _ _ _ DU) by congruence. rewrite app_nil_r. auto.
    - cbn. intro i. unfold threads. rewrite nth_threads. cbn [Nat.add].
      split; [apply flat_due|]. apply Forall_forall. intros x IN. apply in_map_iff in IN as (y & <- & _). reflexivity.
  Qed.
  Lemma calls_done : forall d0 progs tr c, gexec ist (g_init o D d0, threads o progs) tr c -> gfinished c ->
    forall i, filter (src_of i) tr = called i (map fst (nth i progs [])).
  Proof.
    intros d0 progs tr c E F i. destruct (calls_made _ _ _ _ E i) as (H & _).
    assert (N : nth i (snd c) [] = []). { destruct (nth_in_or_default i (snd c) []) as [I|I]; auto. }
    rewrite N in H. cbn in H. now rewrite app_nil_r in H.
  Qed.
End Done.

Lemma per_erase : forall A i (tr : list (alab A)), filter (src_of i) (erase tr) = erase (per i tr).
Proof.
  unfold erase, per. induction tr as [|[[j e|j e]|j e] tr IH]; cbn; auto; destruct (j =? i); cbn; auto; now rewrite IH.
Qed.
Lemma erase_expand : forall A i (p : list (ev A)), erase (expand i p) = called i p.
Proof. unfold erase, expand, called. induction p as [|e p IH]; cbn; auto. now rewrite IH. Qed.

(** A linearization of a finished execution contains all events of all sources. *)
Lemma all_in : forall A (ps : list (list (ev A))) tr h i, linearized ps tr h ->
  filter (src_of i) tr = called i (nth i ps []) -> evs_of i h = nth i ps [].
Proof.
  intros A ps tr h i (tr' & <- & <- & P) F. destruct (P i) as [r R]. rewrite per_erase in F.
  assert (r = []).
  { assert (ER : erase r = []).
    { pose proof (f_equal erase R) as Z. rewrite erase_expand, erase_app, F in Z. rewrite <- (app_nil_r (called i (nth i ps []))) in Z at 1. now apply app_inv_head in Z. }
    destruct r as [|x r] using rev_ind; auto. exfalso. clear IHr.
    assert (exists q e, expand i (nth i ps []) = q ++ [Vis (Ret i e)]) as (q & e & Q).
    { destruct (nth i ps []) as [|e p _] using rev_ind; [destruct (per i tr'); destruct r; discriminate|].
      rewrite expand_app. exists (expand i p ++ [Vis (Inv i e); Lin i e]), e. cbn. now rewrite <- app_assoc. }
    rewrite Q, app_assoc in R. apply app_inj_tail in R as [_ <-]. rewrite erase_app in ER. cbn in ER. destruct (erase r); discriminate. }
  subst r. rewrite app_nil_r in R. rewrite evs_lins, <- R. apply evs_expand.
Qed.

(** ** merge when everything completes *)
Definition inner_val {V} (x : nat * ev (unit + V)) : list (nat * V) :=
  match x with (S j, Next (inr v)) => [(j, v)] | _ => [] end.
Definition tagged {V} (h : hist (unit + V)) : list (nat * V) := flat_map inner_val h.

Lemma evs_cons : forall A i j e (h : hist A), evs_of i ((j, e) :: h) = (if j =? i then [e] else []) ++ evs_of i h.
Proof. intros. unfold evs_of. cbn. destruct (j =? i); reflexivity. Qed.

Definition ends {A} (p : list (ev A)) : Prop := exists vs, p = map Next vs ++ [Done].
Lemma ends_cons : forall A (e : ev A) r, ends (e :: r) -> (e = Done /\ r = []) \/ (exists v, e = Next v) /\ ends r.
Proof.
  intros A e r ([|v vs] & E); cbn in E; injection E as -> ->; [now left|]. right. split; eauto. exists vs. auto.
Qed.

Lemma live_ends : forall A (h : hist A) ended, (forall i, evs_of i h = [] \/ ~ In i ended /\ ends (evs_of i h)) ->
  live_from ended h = h.
Proof.
  induction h as [|[i e] h IH]; intros ended W; cbn; auto.
  pose proof (W i) as Wi. rewrite evs_cons, Nat.eqb_refl in Wi. destruct Wi as [Wi|[NI Wi]]; [discriminate|].
  assert (existsb (Nat.eqb i) ended = false) as ->.
  { destruct (existsb (Nat.eqb i) ended) eqn:X; auto. apply existsb_exists in X as (j & J & Q). apply Nat.eqb_eq in Q. subst j. contradiction. }
  f_equal. apply IH. intro j. pose proof (W j) as Wj. rewrite evs_cons in Wj. cbn [app] in Wi.
  destruct (Nat.eqb_spec i j) as [EQ|NE]; [subst j|]; cbn [app] in Wj.
  - destruct (ends_cons _ _ _ Wi) as [[-> R]|[(v & ->) R]]; [left; auto|]. right. auto.
  - destruct Wj as [Wj|[N2 Wj]]; [now left|]. right. split; auto. destruct (is_term e); auto. intros [->|I]; auto.
Qed.

Lemma completed_app : forall A i (a b : hist A), completed i (a ++ b) = completed i a || completed i b.
Proof. intros. apply existsb_app. Qed.
Lemma completed_evs : forall A i (h : hist A), completed i h = existsb (fun e => match e with Done => true | _ => false end) (evs_of i h).
Proof.
  induction h as [|[j e] h IH]; auto. rewrite evs_cons, existsb_app, <- IH. cbn. destruct (j =? i); auto. cbn. now rewrite orb_false_r.
Qed.
Lemma opened_evs : forall V (h : hist (unit + V)), opened h = length (filter (fun e => match e with Next (inl _) => true | _ => false end) (evs_of 0 h)).
Proof.
  unfold opened. induction h as [|[j e] h IH]; auto. rewrite evs_cons, filter_app, app_length, <- IH. cbn. destruct (j =? 0); auto.
  cbn. destruct e as [[]| |]; auto.
Qed.
Lemma opened_app : forall V (a b : hist (unit + V)), opened (a ++ b) = opened a + opened b.
Proof. intros. unfold opened. now rewrite filter_app, app_length. Qed.

(** Source i of what is still to come, given what was. *)
Definition still {V} (past h : hist (unit + V)) (n : nat) : Prop :=
  opened (past ++ h) = n /\
  forall i, (completed i past = true /\ evs_of i h = []) \/ (completed i past = false /\ i <= n /\ ends (evs_of i h)) \/ (n < i /\ evs_of i h = []).

Lemma merge_all : forall V (h past : hist (unit + V)) n, still past h n -> h <> [] ->
  (forall i v, 0 < i -> ~ In (i, Next (inl v)) h) -> (forall v, ~ In (0, Next (inr v)) h) ->
  outs_from merge_out past h = map Next (map snd (tagged h)) ++ [Done].
Proof.
  intros V h. induction h as [|[i e] h IH]; intros past n (O & W) NE N1 N2; [congruence|]. clear NE.
  pose proof (W i) as Wi. rewrite evs_cons, Nat.eqb_refl in Wi. cbn [app] in Wi. destruct Wi as [[_ Wi]|[(CI & LI & EI)|[_ Wi]]]; try discriminate.
  assert (ST : still (past ++ [(i, e)]) h n).
  { split; [rewrite <- app_assoc; exact O|]. intro j. pose proof (W j) as Wj. rewrite evs_cons in Wj. rewrite completed_app. cbn [completed existsb fst snd].
    destruct (Nat.eqb_spec i j) as [EQ|NJ]; [subst j|]; cbn [app] in Wj.
    - rewrite CI. destruct (ends_cons _ _ _ EI) as [[-> R]|[(v & ->) R]]; cbn; [left; auto|]. right; left; auto.
    - cbn. rewrite orb_false_r. exact Wj. }
  destruct h as [|x h].
  - destruct (ends_cons _ _ _ EI) as [[-> R]|[(v & ->) (w & R)]]; [|destruct w; discriminate].
    assert (tagged [(i, @Done (unit + V))] = []) as -> by (destruct i; reflexivity). cbn [outs_from map app].
    rewrite app_nil_r. unfold merge_out. rewrite O.
    assert (forallb (fun j => completed j (past ++ [(i, Done)])) (seq 0 (S n)) = true) as ->; auto.
    apply forallb_forall. intros j J. apply in_seq in J. destruct ST as (_ & W'). destruct (W' j) as [[C _]|[(_ & _ & (w & Q))|[Q _]]]; auto; [destruct w; discriminate|lia].
  - change (outs_from merge_out past ((i, e) :: x :: h)) with (merge_out past i e ++ outs_from merge_out (past ++ [(i, e)]) (x :: h)).
    rewrite (IH (past ++ [(i, e)]) n); [|exact ST|discriminate|intros k v K I; apply (N1 k v K); now right|intros v I; apply (N2 v); now right].
    destruct (ends_cons _ _ _ EI) as [[-> R]|[(v & ->) R]].
    + assert (merge_out past i (@Done (unit + V)) = []) as ->.
      { unfold merge_out. assert (forallb (fun j => completed j (past ++ [(i, Done)])) (seq 0 (S (opened (past ++ [(i, Done)])))) = false) as ->; auto.
        destruct ST as (O' & W'). destruct x as [k e']. pose proof (W' k) as Wk. rewrite evs_cons, Nat.eqb_refl in Wk. cbn [app] in Wk.
        destruct Wk as [[_ Wk]|[(CK & LK & _)|[_ Wk]]]; try discriminate.
        destruct (forallb _ _) eqn:F; auto. exfalso. rewrite forallb_forall in F.
        assert (C0 : completed 0 (past ++ [(i, Done)]) = true) by (apply F, in_seq; lia).
        assert (E0 : evs_of 0 ((k, e') :: h) = []). { destruct (W' 0) as [[_ Q]|[(Q & _)|[_ Q]]]; auto. congruence. }
        rewrite opened_app, (opened_evs _ ((k, e') :: h)), E0 in O'. cbn in O'.
        rewrite F in CK; [discriminate|]. apply in_seq. lia. }
      assert (tagged ((i, @Done (unit + V)) :: x :: h) = tagged (x :: h)) as -> by (destruct i; reflexivity). reflexivity.
    + unfold merge_out. destruct v as [u|v].
      * assert (tagged ((i, Next (@inl unit V u)) :: x :: h) = tagged (x :: h)) as -> by (destruct i; reflexivity). reflexivity.
      * destruct i as [|i]; [exfalso; apply (N2 v); now left|]. reflexivity.
Qed.

Lemma tag_evs : forall V j (h : hist (unit + V)), map snd (filter (fun x => fst x =? j) (tagged h)) = flat_map (fun e => match e with Next (inr v) => [v] | _ => [] end) (evs_of (S j) h).
Proof.
  intros V j. induction h as [|[i e] h IH]; auto. rewrite evs_cons, flat_map_app, <- IH. unfold tagged. cbn [flat_map]. rewrite filter_app, map_app. f_equal.
  destruct i as [|i]; auto. cbn [Nat.eqb]. destruct e as [[u|v]|x|]; cbn; destruct (i =? j); reflexivity.
Qed.

Lemma evs_in : forall A i e (h : hist A), In (i, e) h <-> In e (evs_of i h).
Proof.
  intros. unfold evs_of. rewrite in_map_iff. split.
  - intro I. exists (i, e). split; auto. apply filter_In. split; auto. apply Nat.eqb_refl.
  - intros ([j e'] & E & I). apply filter_In in I as [I Q]. cbn in *. apply Nat.eqb_eq in Q. now subst.
Qed.

(** [n] inner observables, the j-th with the values [nth j vss []]. *)
Definition all_progs {V} (vss : list (list V)) : list (list (ev (unit + V))) :=
  (repeat (Next (inl tt)) (length vss) ++ [Done]) :: map (fun vs => map (fun v => Next (inr v)) vs ++ [Done]) vss.

Lemma merge_all_hist : forall V (vss : list (list V)) (h : hist (unit + V)), (forall i, evs_of i h = nth i (all_progs vss) []) ->
  outs merge_out h = map Next (map snd (tagged h)) ++ [Done] /\
  (forall j, map snd (filter (fun x => fst x =? j) (tagged h)) = nth j vss []).
Proof.
  intros V vss h E.
  assert (NTH : forall j, nth j (map (fun vs : list V => map (fun v => Next (@inr unit V v)) vs ++ [Done]) vss) [] = if j <? length vss then map (fun v => Next (inr v)) (nth j vss []) ++ [Done] else []).
  { intro j. destruct (Nat.ltb_spec j (length vss)) as [L|L].
    - rewrite (nth_indep _ [] (map (fun v => Next (inr v)) (@nil V) ++ [Done])) by (now rewrite map_length). exact (map_nth (fun vs : list V => map (fun v => Next (@inr unit V v)) vs ++ [Done]) vss [] j).
    - apply nth_overflow. now rewrite map_length. }
  assert (EN : forall i, evs_of i h = [] /\ length vss < i \/ ends (evs_of i h) /\ i <= length vss).
  { intro i. rewrite E. destruct i as [|i]; cbn [all_progs nth].
    - right. split; [|lia]. exists (repeat (inl tt) (length vss)). f_equal. clear. induction vss; cbn; f_equal; auto.
    - rewrite NTH. destruct (Nat.ltb_spec i (length vss)); [right|left]; split; auto; try lia. exists (map inr (nth i vss [])). now rewrite map_map. }
  split.
  - unfold outs, live. rewrite live_ends.
    + apply merge_all with (n := length vss).
      * split.
        -- cbn [app]. rewrite opened_evs, E. cbn [all_progs nth]. rewrite filter_app, app_length. cbn. rewrite Nat.add_0_r.
           clear. induction vss as [|x l IH]; cbn; auto.
        -- intro i. destruct (EN i) as [[Q1 Q2]|[Q1 Q2]]; [right; right; auto|right; left; auto].
      * intros ->. specialize (E 0). cbn in E. destruct (length vss); discriminate.
      * intros i v P I. apply evs_in in I. rewrite E in I. destruct i as [|i]; [lia|]. cbn [all_progs nth] in I. rewrite NTH in I.
        destruct (i <? length vss); [|destruct I]. apply in_app_or in I as [I|[I|[]]]; [|discriminate]. apply in_map_iff in I as (z & Z & _). discriminate.
      * intros v I. apply evs_in in I. rewrite E in I. cbn [all_progs nth] in I. apply in_app_or in I as [I|[I|[]]]; [|discriminate].
        apply repeat_spec in I. discriminate.
    + intro i. destruct (EN i) as [[Q1 _]|[Q1 _]]; auto.
  - intro j. rewrite tag_evs, E. cbn [all_progs nth]. rewrite NTH. destruct (Nat.ltb_spec j (length vss)) as [L|L].
    + rewrite flat_map_app. cbn. rewrite app_nil_r. induction (nth j vss []) as [|v l IH]; cbn; auto. now rewrite IH.
    + rewrite nth_overflow; auto.
Qed.

(** ** merge when something fails *)
Definition wfs {A} (p : list (ev A)) : Prop := exists vs t, p = map Next vs ++ t /\ (t = [] \/ exists e, is_term e = true /\ t = [e]).
Lemma wfs_cons : forall A (e : ev A) r, wfs (e :: r) -> (is_term e = true -> r = []) /\ wfs r.
Proof.
  intros A e r ([|v vs] & t & E & T); cbn in E.
  - subst t. destruct T as [T|(x & I & T)]; [discriminate|]. injection T as -> ->. split; auto. exists [], []. auto.
  - injection E as -> ->. split; [discriminate|]. exists vs, t. auto.
Qed.
(** A stream up to its first terminal event. *)
Fixpoint cut {A} (p : list (ev A)) : list (ev A) := match p with [] => [] | e :: r => if is_term e then [e] else e :: cut r end.
Lemma cut_wfs : forall A (p : list (ev A)), wfs (cut p).
Proof.
  induction p as [|e p IH]; cbn; [exists [], []; auto|]. destruct (is_term e) eqn:T.
  - exists [], [e]. split; auto. right. eauto.
  - destruct e as [v| |]; try discriminate. destruct IH as (vs & t & -> & H). exists (v :: vs), t. auto.
Qed.
Lemma evs_live : forall A i (h : hist A) ended, evs_of i (live_from ended h) = if existsb (Nat.eqb i) ended then [] else cut (evs_of i h).
Proof.
  induction h as [|[j e] h IH]; intro ended; cbn [live_from]; [now destruct (existsb _ _)|].
  rewrite evs_cons. destruct (existsb (Nat.eqb j) ended) eqn:X.
  - rewrite IH. destruct (existsb (Nat.eqb i) ended) eqn:Y; auto. destruct (Nat.eqb_spec j i) as [->|N]; [congruence|]. reflexivity.
  - rewrite evs_cons, IH. destruct (Nat.eqb_spec j i) as [->|N].
    + rewrite X. cbn [app cut]. destruct (is_term e); cbn; [|now rewrite X]. now rewrite Nat.eqb_refl.
    + cbn [app]. destruct (is_term e); cbn; auto. destruct (Nat.eqb_spec i j); [congruence|]. reflexivity.
Qed.
Lemma evs_app : forall A i (a b : hist A), evs_of i (a ++ b) = evs_of i a ++ evs_of i b.
Proof. intros. unfold evs_of. now rewrite filter_app, map_app. Qed.
Lemma outs_app : forall A B (out : hist A -> nat -> ev A -> list (ev B)) a p b, outs_from out p (a ++ b) = outs_from out p a ++ outs_from out (p ++ a) b.
Proof.
  induction a as [|[i e] a IH]; intros p b; cbn; [now rewrite app_nil_r|]. rewrite IH, <- !app_assoc. reflexivity.
Qed.
Definition is_err {A} (e : ev A) : bool := match e with Err _ => true | _ => false end.
Lemma first_err : forall A (h : hist A), existsb (fun x => is_err (snd x)) h = true ->
  exists h1 i x h2, h = h1 ++ (i, Err x) :: h2 /\ existsb (fun x => is_err (snd x)) h1 = false.
Proof.
  induction h as [|[i e] h IH]; cbn; intro H; [discriminate|]. destruct e as [v|x|]; cbn in H; try (destruct (IH H) as (h1 & j & x & h2 & -> & E)).
  - exists ((i, Next v) :: h1), j, x, h2. auto.
  - exists [], i, x, h. auto.
  - exists ((i, Done) :: h1), j, x, h2. auto.
Qed.
Lemma wfs_done_err : forall A (p : list (ev A)) x, wfs p -> In (Err x) p -> ~ In Done p.
Proof.
  intros A p x (vs & t & -> & T) I J. apply in_app_or in I as [I|I]; [apply in_map_iff in I as (? & ? & _); discriminate|].
  apply in_app_or in J as [J|J]; [apply in_map_iff in J as (? & ? & _); discriminate|].
  destruct T as [->|(e & _ & ->)]; [destruct I|]. destruct I as [->|[]]. destruct J as [J|[]]. discriminate.
Qed.
Lemma completed_in : forall A i (h : hist A), completed i h = true <-> In (i, Done) h.
Proof.
  intros. unfold completed. rewrite existsb_exists. split.
  - intros ([j e] & I & Q). cbn in Q. apply andb_true_iff in Q as [Q1 Q2]. apply Nat.eqb_eq in Q1. subst. destruct e; discriminate || auto.
  - intro I. exists (i, Done). split; auto. cbn. now rewrite Nat.eqb_refl.
Qed.

Lemma merge_fail : forall V (h : hist (unit + V)) n,
  (forall i, wfs (evs_of i h)) -> (forall i, n < i -> evs_of i h = []) -> (In (0, Done) h -> opened h = n) ->
  existsb (fun x => is_err (snd x)) h = true ->
  exists vs i x r, outs_from merge_out [] h = map Next vs ++ Err x :: r /\ In (i, Err x) h.
Proof.
  intros V h n W B O E. destruct (first_err _ h E) as (h1 & k & x & h2 & H & NE1).
  assert (KN : k <= n). { destruct (Nat.le_gt_cases k n) as [|G]; auto. apply (B k) in G. rewrite H, evs_app, evs_cons, Nat.eqb_refl in G. destruct (evs_of k h1); discriminate. }
  assert (ND : forall p r, h = p ++ r -> forallb (fun j => completed j p) (seq 0 (S (opened p))) = false).
  { intros p r PR. destruct (forallb _ _) eqn:F; auto. exfalso. rewrite forallb_forall in F.
    assert (C0 : completed 0 p = true) by (apply F, in_seq; lia). apply completed_in in C0.
    assert (ER : evs_of 0 r = []).
    { destruct (W 0) as (vs & t & Q & T). assert (IN : In Done (evs_of 0 p)) by now apply evs_in.
      apply in_split in IN as (l1 & l2 & IN). rewrite PR, evs_app, IN, <- app_assoc in Q. cbn in Q.
      destruct (evs_of 0 r) as [|z q] eqn:Z; auto. exfalso.
      assert (forall (l1 : list (ev (unit + V))) l2 z q vs, l1 ++ Done :: l2 ++ z :: q = map Next vs ++ t -> False) as K.
      { clear - T. induction l1 as [|y l1 IH]; intros l2 z q [|v vs] Q; cbn in Q.
        - destruct T as [->|(e & _ & ->)]; [discriminate|]. injection Q as _ Q. destruct l2; discriminate.
        - discriminate.
        - destruct T as [->|(e & _ & ->)]; [discriminate|]. injection Q as _ Q. destruct l1; discriminate.
        - injection Q as -> Q. eapply IH; eauto. }
      eapply K; eauto. }
    assert (OP : opened p = n). { rewrite <- O by (rewrite PR; apply in_or_app; now left). rewrite PR, opened_app, (opened_evs _ r), ER. cbn. lia. }
    assert (CK : completed k p = true) by (apply F, in_seq; lia). apply completed_in in CK.
    apply (wfs_done_err _ (evs_of k h) x (W k)); apply evs_in; [rewrite H; apply in_or_app; right; now left|rewrite PR; apply in_or_app; now left]. }
  assert (ALL : forall a p r, h = p ++ a ++ r -> existsb (fun x => is_err (snd x)) a = false -> exists vs, outs_from merge_out p a = map Next vs).
  { induction a as [|[i e] a IH]; intros p r PR NA; [now exists []|]. cbn in NA. apply orb_false_iff in NA as [N1 N2].
    destruct (IH (p ++ [(i, e)]) r) as (vs & Q); [rewrite PR, <- app_assoc; reflexivity|auto|]. cbn [outs_from]. rewrite Q. unfold merge_out.
    destruct e as [[u|v]|y|]; try discriminate.
    - exists vs. reflexivity.
    - destruct (i =? 0); [exists vs|exists (v :: vs)]; reflexivity.
    - rewrite (ND (p ++ [(i, Done)]) (a ++ r)) by (rewrite PR, <- app_assoc; reflexivity). exists vs. reflexivity. }
  destruct (ALL h1 [] ((k, Err x) :: h2) H NE1) as (vs & Q). exists vs, k, x, (outs_from merge_out ([] ++ h1 ++ [(k, Err x)]) h2).
  split; [|rewrite H; apply in_or_app; right; now left]. rewrite H, outs_app, Q. cbn. reflexivity.
Qed.
