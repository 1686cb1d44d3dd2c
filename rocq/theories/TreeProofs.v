(** A tree of operators projected onto one operator is an execution of that operator. *)
From Coq Require Import Permutation Eqdep_dec.
From Verif Require Import Base Machine Concur MultiSpec MultiModel MultiLin MultiRace TreeSpec TreeModel.
Open Scope nat_scope.

(** ** One operator *)
Section One.
  Context {A B : Type} (o : mop A B) (D : machine B).
  Notation ist := (istep o D (fun _ => @nil (nat * ev A))).

  Definition port (x : item o) : nat := match x with IEv i _ _ | IRun i _ _ _ => i end.

  Lemma step_port : forall g x g' its ls, ist g x = Some (g', its, ls) -> Forall (fun y => port y = port x) its.
  Proof.
    intros g [i e st|i e st k] g' its ls H; cbn [istep] in H.
    - injection H as <- <- <-. repeat constructor.
    - destruct (pstep o D _ g i e st k) as [[[g1 [k'|]] n]|] eqn:P; try discriminate;
        pose proof (pst_nil o D g i e st k g1 _ n P) as ->; injection H as <- <- <-; repeat constructor.
  Qed.

  Definition calling (x : item o) : bool := match x with IRun _ _ _ (PCall _ _) => true | _ => false end.
  Lemma step_down : forall g x g' its ls, ist g x = Some (g', its, ls) -> calling x = false -> g_down g' = g_down g.
  Proof.
    intros g [i e st|i e st k] g' its ls H C; cbn [istep] in H.
    - now injection H as <- <- <-.
    - destruct k as [|m|p|p|l t|t|x|]; cbn [pstep] in H; try discriminate C.
      + destruct (negb _); [discriminate|]. destruct (_ && _); [discriminate|]. destruct (gate o D g i st); injection H as <- _ _; auto.
      + destruct (mo_pre o m (g_op g) i e) as [s [| |p|x]]; injection H as <- _ _; auto.
      + destruct (g_lock g); [discriminate|]. injection H as <- _ _; auto.
      + destruct (mo_body o (g_op g) p) as [[s l] t]. injection H as <- _ _; auto.
      + injection H as <- _ _; auto.
      + destruct (_ && _); [discriminate|]. destruct (gate o D g i st); injection H as <- _ _; auto.
      + injection H as <- _ _; auto.
  Qed.
  Lemma step_call : forall g i e st l t g' its ls, ist g (IRun i e st (PCall l t)) = Some (g', its, ls) ->
    its = [IRun i e st (PUnlock t)] /\ ls = [] /\ g_down g' = mrun D (g_down g) l.
  Proof. intros g i e st l t g' its ls H. cbn in H. destruct l; injection H as <- <- <-; auto. Qed.

  (** A step of a running call leaves at most one program point. *)
  Lemma step_one : forall g x g' its ls, ist g x = Some (g', its, ls) ->
    its = [] \/ exists e st k, its = [IRun (port x) e st k].
  Proof.
    intros g [i e st|i e st k] g' its ls H; cbn [istep] in H.
    - injection H as <- <- <-. right. eauto.
    - destruct (pstep o D _ g i e st k) as [[[g1 [k'|]] n]|] eqn:P; try discriminate;
        pose proof (pst_nil o D g i e st k g1 _ n P) as ->; injection H as <- <- <-; [right; eauto|left; auto].
  Qed.

  Lemma lock_count : forall g0 ts0 tr c, gexec ist (g0, ts0) tr c -> count (@holds_lock A B o) (concat ts0) = (if g_lock g0 then 1 else 0) ->
    count (@holds_lock A B o) (concat (snd c)) = if g_lock (fst c) then 1 else 0.
  Proof.
    intros g0 ts0 tr c X I. revert X. intro X.
    apply (gexec_inv ist (fun g l _ => count (@holds_lock A B o) l = if g_lock g then 1 else 0)) with (c0 := (g0, ts0)) (tr := tr); auto.
    - intros s l l' _ P E. now rewrite <- (count_perm _ _ _ P).
    - clear. intros g x l _ g' its ls E H. rewrite count_app. rewrite count_cons in E.
      destruct x as [i e st|i e st k]; cbn [istep] in H.
      + injection H as <- <- <-. rewrite count_cons, count_nil. cbn in *. lia.
      + destruct k as [|m|p|p|l0 t|t|x|]; cbn [pstep] in H; cbn [holds_lock] in E.
        * destruct (negb _); [discriminate|]. destruct (_ && _); [discriminate|]. destruct (gate o D g i st); injection H as <- <- _; rewrite ?count_cons, count_nil; cbn; lia.
        * destruct (mo_pre o m (g_op g) i e) as [s [| |p|x]]; injection H as <- <- _; rewrite ?count_cons, count_nil; cbn [g_lock map app holds_lock]; lia.
        * destruct (g_lock g); [discriminate|]. injection H as <- <- _; rewrite ?count_cons, count_nil; cbn; lia.
        * destruct (mo_body o (g_op g) p) as [[s l1] t]. injection H as <- <- _; rewrite ?count_cons, count_nil; cbn [g_lock map app holds_lock]; lia.
        * destruct l0; injection H as <- <- _; rewrite ?count_cons, count_nil; cbn [g_lock map app holds_lock]; lia.
        * injection H as <- <- _; destruct t; rewrite ?count_cons, count_nil; cbn [g_lock map app holds_lock]; destruct (g_lock g); lia.
        * destruct (_ && _); [discriminate|]. destruct (gate o D g i st); injection H as <- <- _; rewrite ?count_cons, count_nil; cbn; lia.
        * injection H as <- <- _; rewrite ?count_nil; cbn [g_lock]; lia.
  Qed.
End One.

(** Threads can be given more to do later. *)
Section More.
  Context {S I L : Type} (step : S -> I -> option (S * list I * list L)).
  Fixpoint more (i : nat) (E : list I) (ts : list (list I)) : list (list I) :=
    match ts, i with
    | [], _ => []
    | t :: r, 0 => (t ++ E) :: r
    | t :: r, Datatypes.S j => t :: more j E r
    end.
  Lemma more_app : forall ts1 t ts2 i E, exists ts1' E' ts2', more i E (ts1 ++ t :: ts2) = ts1' ++ (t ++ E') :: ts2' /\
    forall t', more i E (ts1 ++ t' :: ts2) = ts1' ++ (t' ++ E') :: ts2'.
  Proof.
    induction ts1 as [|u ts1 IH]; intros t ts2 [|i] E; cbn.
    - exists [], E, ts2. split; auto.
    - exists [], [], (more i E ts2). split; intros; now rewrite app_nil_r.
    - exists ((u ++ E) :: ts1), [], ts2. split; intros; now rewrite app_nil_r.
    - destruct (IH t ts2 i E) as (a & E' & b & H1 & H2). exists (u :: a), E', b. split; [now rewrite H1|]. intro t'. now rewrite H2.
  Qed.
  Lemma gexec_more : forall i E c0 tr c, gexec step c0 tr c ->
    gexec step (fst c0, more i E (snd c0)) tr (fst c, more i E (snd c)).
  Proof.
    intros i E c0 tr c X. induction X as [c|c tr c1 ls c2 X IH G]; [constructor|].
    econstructor; [exact IH|]. destruct G as [s ts1 it rest ts2 s' its ls H]. cbn [fst snd].
    destruct (more_app ts1 (it :: rest) ts2 i E) as (a & E' & b & H1 & H2). rewrite H1, H2, <- app_assoc. cbn [app].
    now constructor.
  Qed.
End More.

Section Tree.
  Context {V : Type} (N : path -> node V) (stale : path -> nat -> bool).
  Notation op p := (nd_op (N p)).
  Notation DD p := (nd_D (N p)).
  Notation ist p := (istep (op p) (DD p) (fun _ => @nil (nat * ev V))).
  Notation titem := (titem N).
  Variable ports : path -> nat.
  Variable srcs : list (path * list (ev V)).

  Hypothesis grows : forall p d l, exists l', nd_log (N p) (mrun (DD p) d l) = nd_log (N p) d ++ l'.
  Hypothesis quiet : forall p, nd_log (N p) (nd_d0 (N p)) = [].
  Hypothesis rooted : forall q, In q (map fst srcs) -> q <> [].
  Hypothesis distinct : NoDup (map fst srcs).
  Hypothesis outer : forall q q' r, In q (map fst srcs) -> In q' (map fst srcs) -> q' = r ++ q -> r = [].
  Hypothesis inports : forall q r i p, In q (map fst srcs) -> q = r ++ i :: p -> i < ports p.

  (** ** Program points of one operator *)
  Definition cast (p : path) (x : titem) : option (item (op p)) :=
    match x with
    | TI q y => match path_dec q p with
                | left E => Some (match E in _ = r return item (op r) with eq_refl => y end)
                | right _ => None
                end
    end.
  Lemma cast_same : forall p y, cast p (TI p y) = Some y.
  Proof. intros. cbn. destruct (path_dec p p) as [E|]; [|congruence]. now rewrite (UIP_dec path_dec E eq_refl). Qed.
  Lemma cast_other : forall p q y, q <> p -> cast p (TI q y) = None.
  Proof. intros. cbn. destruct (path_dec q p); congruence. Qed.
  Lemma cast_inv : forall p x y, cast p x = Some y -> x = TI p y.
  Proof. intros p [q z] y. cbn. destruct (path_dec q p) as [E|]; [|discriminate]. subst q. intro H. now injection H as ->. Qed.

  Lemma put_same : forall s p g, put N s p g p = g.
  Proof. intros. unfold put. destruct (path_dec p p) as [E|]; [|congruence]. now rewrite (UIP_dec path_dec E eq_refl). Qed.
  Lemma put_other : forall s p g q, p <> q -> put N s p g q = s q.
  Proof. intros. unfold put. destruct (path_dec p q); congruence. Qed.

  Definition on1 (p : path) (i : nat) (x : titem) : list (item (op p)) :=
    match cast p x with Some y => if port (op p) y =? i then [y] else [] | None => [] end.
  Definition on (p : path) (i : nat) (S : list titem) : list (item (op p)) := flat_map (on1 p i) S.
  Definition vt (p : path) (i : nat) (thr : list (list titem)) : list (item (op p)) := flat_map (on p i) thr.

  Lemma on1_same : forall p i y, on1 p i (TI p y) = if port (op p) y =? i then [y] else [].
  Proof. intros. unfold on1. now rewrite cast_same. Qed.
  Lemma on1_other : forall p i q y, q <> p -> on1 p i (TI q y) = [].
  Proof. intros. unfold on1. now rewrite cast_other. Qed.
  Lemma on_app : forall p i a b, on p i (a ++ b) = on p i a ++ on p i b.
  Proof. intros. apply flat_map_app. Qed.
  Lemma on_in : forall p i S y, In y (on p i S) -> In (TI p y) S /\ port (op p) y = i.
  Proof.
    intros p i S y I. apply in_flat_map in I. destruct I as (x & I & J). unfold on1 in J. destruct (cast p x) as [z|] eqn:C; [|destruct J].
    destruct (Nat.eqb_spec (port (op p) z) i); [|destruct J]. destruct J as [->|[]]. apply cast_inv in C. subst x. auto.
  Qed.
  Lemma in_on : forall p S y, In (TI p y) S -> In y (on p (port (op p) y) S).
  Proof. intros p S y I. apply in_flat_map. exists (TI p y). split; auto. rewrite on1_same, Nat.eqb_refl. now left. Qed.
  Lemma on_none : forall p i S, (forall y, In (TI p y) S -> port (op p) y <> i) -> on p i S = [].
  Proof.
    intros p i S H. destruct (on p i S) as [|y l] eqn:E; auto. exfalso. assert (I : In y (on p i S)) by (rewrite E; now left).
    apply on_in in I. destruct I as [I P]. exact (H y I P).
  Qed.
  Lemma on_map : forall p i its, on p i (map (TI p) its) = filter (fun y => port (op p) y =? i) its.
  Proof. intros p i its. induction its as [|y its IH]; auto. cbn [map on flat_map filter]. rewrite on1_same. unfold on in IH. rewrite IH. destruct (port (op p) y =? i); reflexivity. Qed.
  Lemma on_map_other : forall p i q its, q <> p -> on p i (map (TI q) its) = [].
  Proof. intros p i q its NE. apply on_none. intros y I. apply in_map_iff in I. destruct I as (z & E & _). exfalso. apply NE. now injection E. Qed.

  (** ** Calls *)
  Fixpoint flagged (q : path) (k : nat) (l : list (ev V)) : list (ev V * bool) :=
    match l with [] => [] | e :: r => (e, stale q k) :: flagged q (S k) r end.
  Lemma flagged_fst : forall q l k, map fst (flagged q k l) = l.
  Proof. induction l as [|e l IH]; intro k; cbn; auto. now rewrite IH. Qed.
  Lemma flagged_app : forall q a b k, flagged q k (a ++ b) = flagged q k a ++ flagged q (length a + k) b.
  Proof. induction a as [|e a IH]; intros b k; cbn [app flagged length Nat.add]; auto. rewrite IH. cbn. do 2 f_equal. f_equal. lia. Qed.

  Lemma in_calls : forall i p l k x, In x (calls N stale i p k l) -> exists e st, x = TI p (IEv i e st).
  Proof. induction l as [|e l IH]; intros k x I; [destruct I|]. cbn in I. destruct I as [<-|I]; eauto. Qed.
  Lemma on_calls : forall i p l k, on p i (calls N stale i p k l) = map (mk (op p) i) (flagged (i :: p) k l).
  Proof.
    induction l as [|e l IH]; intro k; auto. cbn [calls flagged map on flat_map]. rewrite on1_same. cbn [port]. rewrite Nat.eqb_refl. cbn [app]. unfold on in IH. now rewrite IH.
  Qed.
  Lemma on_calls_other : forall i p l k p' i', (i, p) <> (i', p') -> on p' i' (calls N stale i p k l) = [].
  Proof.
    intros i p l k p' i' NE. apply on_none. intros y I. apply in_calls in I. destruct I as (e & st & E). injection E as -> E.
    apply inj_pair2_eq_dec in E; [|exact path_dec]. subst y. cbn. congruence.
  Qed.

  (** ** Stacks *)
  Inductive stk : path -> list titem -> Prop :=
  | SEv : forall i p k l, stk (i :: p) (calls N stale i p k l)
  | SRun : forall i p e st x k l, stk (i :: p) (TI p (IRun i e st x) :: calls N stale i p k l)
  | SUp : forall i p e st t k l S, stk p S -> stk (i :: p) (S ++ TI p (IRun i e st (PUnlock t)) :: calls N stale i p k l).

  Lemma stk_edge : forall q S, stk q S -> forall p y, In (TI p y) S -> exists r, q = r ++ port (op p) y :: p.
  Proof.
    assert (C : forall i p l k p' y, In (TI p' y) (calls N stale i p k l) -> exists r, i :: p = r ++ port (op p') y :: p').
    { intros i p l k p' y I. apply in_calls in I. destruct I as (e & st & E). injection E as -> E. apply inj_pair2_eq_dec in E; [|exact path_dec]. subst y. exists []. reflexivity. }
    assert (R : forall i p e st x p' y, TI p (IRun i e st x) = TI p' y -> exists r, i :: p = r ++ port (op p') y :: p').
    { intros i p e st x p' y E. injection E as -> E. apply inj_pair2_eq_dec in E; [|exact path_dec]. subst y. exists []. reflexivity. }
    induction 1 as [i p k l|i p e st x k l|i p e st t k l S H IH]; intros p' y I.
    - eauto.
    - destruct I as [I|I]; eauto.
    - apply in_app_or in I. destruct I as [I|[I|I]]; eauto. destruct (IH p' y I) as (r & ->). exists (i :: r). reflexivity.
  Qed.
  Lemma stk_short : forall q S, stk q S -> forall p y, In (TI p y) S -> length p < length q.
  Proof. intros q S H p y I. destruct (stk_edge q S H p y I) as (r & ->). rewrite app_length. cbn. lia. Qed.

  Lemma stk_below : forall q S, stk q S -> forall p y, In (TI p y) S ->
    q = port (op p) y :: p \/ exists i e st t, In (TI (port (op p) y :: p) (IRun i e st (PUnlock t))) S.
  Proof.
    induction 1 as [i p k l|i p e st x k l|i p e st t k l S H IH]; intros p' y I.
    - left. apply in_calls in I. destruct I as (e & st & E). injection E as -> E. apply inj_pair2_eq_dec in E; [|exact path_dec]. now subst y.
    - left. destruct I as [I|I].
      + injection I as -> E. apply inj_pair2_eq_dec in E; [|exact path_dec]. now subst y.
      + apply in_calls in I. destruct I as (e1 & st1 & E). injection E as -> E. apply inj_pair2_eq_dec in E; [|exact path_dec]. now subst y.
    - apply in_app_or in I. destruct I as [I|[I|I]].
      + right. destruct (IH p' y I) as [->|(i1 & e1 & s1 & t1 & J)]; [exists i, e, st, t|exists i1, e1, s1, t1]; apply in_or_app; [right; now left|now left].
      + left. injection I as -> E. apply inj_pair2_eq_dec in E; [|exact path_dec]. now subst y.
      + left. apply in_calls in I. destruct I as (e1 & st1 & E). injection E as -> E. apply inj_pair2_eq_dec in E; [|exact path_dec]. now subst y.
  Qed.

  Lemma calls_free : forall i p l k p' z, In (TI p' z) (calls N stale i p k l) -> holds_lock (op p') z = false.
  Proof. intros i p l k p' z I. apply in_calls in I. destruct I as (e & st & E). injection E as -> E. apply inj_pair2_eq_dec in E; [|exact path_dec]. now subst z. Qed.

  Lemma stk_top : forall q S, stk q S -> forall p y R, S = TI p y :: R ->
    forall p' z, In (TI p' z) R -> holds_lock (op p') z = true -> length p < length p'.
  Proof.
    induction 1 as [i p k l|i p e st x k l|i p e st t k l S H IH]; intros p0 y R E p' z I HL.
    - destruct l as [|e l]; [discriminate|]. cbn in E. injection E as _ _ <-. rewrite (calls_free _ _ _ _ _ _ I) in HL. discriminate.
    - injection E as _ _ <-. rewrite (calls_free _ _ _ _ _ _ I) in HL. discriminate.
    - destruct S as [|h S].
      + injection E as _ _ <-. rewrite (calls_free _ _ _ _ _ _ I) in HL. discriminate.
      + cbn in E. injection E as -> <-. apply in_app_or in I. destruct I as [I|[I|I]].
        * eapply IH; eauto.
        * injection I as -> _. eapply stk_short; [exact H|]. now left.
        * rewrite (calls_free _ _ _ _ _ _ I) in HL. discriminate.
  Qed.

  (** What a step leaves of a stack. *)
  Lemma stk_plain : forall q S, stk q S -> forall p y R, S = TI p y :: R -> calling (op p) y = false ->
    forall its, its = [] \/ (exists e st k, its = [IRun (port (op p) y) e st k]) -> stk q (map (TI p) its ++ R).
  Proof.
    induction 1 as [i p k l|i p e st x k l|i p e st t k l S H IH]; intros p0 y R E C its HI.
    - destruct l as [|e l]; [discriminate|]. cbn in E. injection E as <- E <-. apply inj_pair2_eq_dec in E; [|exact path_dec]. subst y. cbn [port] in HI.
      destruct HI as [->|(e1 & s1 & k1 & ->)]; constructor.
    - injection E as <- E <-. apply inj_pair2_eq_dec in E; [|exact path_dec]. subst y. cbn [port] in HI.
      destruct HI as [->|(e1 & s1 & k1 & ->)]; constructor.
    - destruct S as [|h S].
      + injection E as <- E <-. apply inj_pair2_eq_dec in E; [|exact path_dec]. subst y. cbn [port] in HI.
        destruct HI as [->|(e1 & s1 & k1 & ->)]; constructor.
      + cbn in E. injection E as -> <-. rewrite app_assoc. constructor. eapply IH; eauto.
  Qed.
  Lemma stk_call : forall q S, stk q S -> forall p i e st l t R, S = TI p (IRun i e st (PCall l t)) :: R ->
    forall k l', stk q (above N stale p k l' ++ TI p (IRun i e st (PUnlock t)) :: R).
  Proof.
    induction 1 as [i p k l|i p e st x k l|i p e st t k l S H IH]; intros p0 i0 e0 st0 l0 t0 R E k' l'.
    - destruct l as [|e l]; discriminate.
    - injection E as <- -> -> -> _ <-.
      destruct p as [|j p]; cbn [above app]; [constructor|]. constructor. constructor.
    - destruct S as [|h S]; [discriminate E|].
      cbn in E. injection E as -> <-. change (TI p0 (IRun i0 e0 st0 (PUnlock t0)) :: S ++ TI p (IRun i e st (PUnlock t)) :: calls N stale i p k l)
        with ((TI p0 (IRun i0 e0 st0 (PUnlock t0)) :: S) ++ TI p (IRun i e st (PUnlock t)) :: calls N stale i p k l).
      rewrite app_assoc. constructor. eapply IH; eauto.
  Qed.

  (** ** The invariant *)
  Fixpoint assoc (q : path) (l : list (path * list (ev V))) : option (list (ev V)) :=
    match l with [] => None | (p, x) :: r => if path_dec p q then Some x else assoc q r end.
  (** What has been sent from place q: by the source there, or by the operator there. *)
  Definition stream (s : tstate N) (q : path) : list (ev V) :=
    match assoc q srcs with Some l => l | None => said N s q end.
  Definition progs (s : tstate N) (p : path) : list (list (ev V * bool)) :=
    map (fun i => flagged (i :: p) 0 (stream s (i :: p))) (seq 0 (ports p)).
  Definition proj (p : path) (tr : list (path * lab V)) : list (lab V) :=
    flat_map (fun x => if path_dec (fst x) p then [snd x] else []) tr.

  Definition view (s : tstate N) (thr : list (list titem)) (tr : list (path * lab V)) (p : path) : Prop :=
    gexec (ist p) (g_init (op p) (DD p) (nd_d0 (N p)), threads (op p) (progs s p)) (proj p tr)
          (s p, map (fun i => vt p i thr) (seq 0 (ports p))).

  Record inv (s : tstate N) (thr : list (list titem)) (tr : list (path * lab V)) : Prop := MkInv {
    i_len : length thr = length srcs;
    i_stk : forall a, a < length srcs -> stk (nth a (map fst srcs) []) (nth a thr []);
    i_uniq : forall p i a b, a <> b -> on p i (nth a thr []) = [] \/ on p i (nth b thr []) = [];
    i_view : forall p, view s thr tr p
  }.

  Lemma proj_app : forall p a b, proj p (a ++ b) = proj p a ++ proj p b.
  Proof. intros. apply flat_map_app. Qed.
  Lemma proj_same : forall p ls, proj p (map (pair p) ls) = ls.
  Proof. intros p ls. unfold proj. induction ls as [|x ls IH]; auto. cbn [map flat_map fst snd]. destruct (path_dec p p); [|congruence]. cbn [app]. now rewrite IH. Qed.
  Lemma proj_other : forall p q ls, q <> p -> proj p (map (pair q) ls) = [].
  Proof. intros p q ls NE. unfold proj. induction ls as [|x ls IH]; auto. cbn [map flat_map fst snd]. destruct (path_dec q p); [congruence|]. exact IH. Qed.

  Lemma vt_one : forall p i t1 S t2, (forall b, b <> length t1 -> on p i (nth b (t1 ++ S :: t2) []) = []) -> vt p i (t1 ++ S :: t2) = on p i S.
  Proof.
    intros p i t1 S t2 H. unfold vt. rewrite flat_map_app. cbn [flat_map].
    assert (Z : forall l, (forall t, In t l -> on p i t = []) -> flat_map (on p i) l = []).
    { induction l as [|t l IH]; intro HL; auto. cbn. rewrite (HL t (or_introl eq_refl)), IH; auto. intros; apply HL; now right. }
    rewrite (Z t1), (Z t2); [now rewrite app_nil_r| |].
    - intros t I. apply (In_nth _ _ []) in I. destruct I as (n & L & E). specialize (H (length t1 + Datatypes.S n) ltac:(lia)).
      rewrite app_nth2 in H by lia. replace (length t1 + Datatypes.S n - length t1) with (Datatypes.S n) in H by lia. cbn in H. now rewrite E in H.
    - intros t I. apply (In_nth _ _ []) in I. destruct I as (n & L & E). specialize (H n ltac:(lia)). rewrite app_nth1 in H by auto. now rewrite E in H.
  Qed.
  Lemma vt_same : forall p i t1 S S' t2, on p i S = on p i S' -> vt p i (t1 ++ S :: t2) = vt p i (t1 ++ S' :: t2).
  Proof. intros. unfold vt. rewrite !flat_map_app. cbn. now rewrite H. Qed.
  Lemma in_vt : forall p i thr y, In y (vt p i thr) -> exists a, In (TI p y) (nth a thr []) /\ port (op p) y = i /\ a < length thr.
  Proof. intros p i thr y I. apply in_flat_map in I. destruct I as (t & I & J). apply (In_nth _ _ []) in I. destruct I as (a & L & <-). exists a. apply on_in in J. tauto. Qed.
  Lemma vt_in : forall p thr y a, a < length thr -> In (TI p y) (nth a thr []) -> In y (vt p (port (op p) y) thr).
  Proof. intros p thr y a L I. apply in_flat_map. exists (nth a thr []). split; [now apply nth_In|now apply in_on]. Qed.

  Lemma seq_cut : forall n i, i < n -> seq 0 n = seq 0 i ++ i :: seq (S i) (n - S i).
  Proof. intros n i L. replace n with (i + S (n - S i)) at 1 by lia. rewrite seq_app. reflexivity. Qed.

  (** At most one program point of an operator holds its lock. *)
  Lemma holder : forall s thr tr p a b y z, inv s thr tr -> a < length thr -> b < length thr ->
    In (TI p y) (nth a thr []) -> In (TI p z) (nth b thr []) -> holds_lock (op p) y = true -> holds_lock (op p) z = true -> a = b.
  Proof.
    intros s thr tr p a b y z I LA LB IA IB HY HZ. destruct (Nat.eq_dec a b) as [|NE]; auto. exfalso.
    pose proof (i_view _ _ _ I p) as VW.
    assert (PORT : forall c w, c < length thr -> In (TI p w) (nth c thr []) -> port (op p) w < ports p).
    { intros c w LC IC. rewrite (i_len _ _ _ I) in LC. destruct (stk_edge _ _ (i_stk _ _ _ I c LC) _ _ IC) as (r & E).
      eapply inports; [|exact E]. apply nth_In. now rewrite map_length. }
    pose proof (lock_count (op p) (DD p) _ _ _ _ VW) as K. cbn [fst snd] in K.
    assert (K0 : count (@holds_lock V V (op p)) (concat (threads (op p) (progs s p))) = 0).
    { apply count_zero_of. intros x IX. apply in_concat in IX. destruct IX as (t & IT & IX). unfold threads in IT. apply in_map_iff in IT. destruct IT as (u & <- & _). apply in_map_iff in IX. destruct IX as (w & <- & _). reflexivity. }
    specialize (K K0). clear K0.
    assert (K1 : count (@holds_lock V V (op p)) (concat (map (fun i => vt p i thr) (seq 0 (ports p)))) <= 1) by (rewrite K; destruct (g_lock (s p)); lia). clear K.
    pose proof (PORT a y LA IA) as PA. pose proof (PORT b z LB IB) as PB.
    pose proof (vt_in p thr y a LA IA) as VA. pose proof (vt_in p thr z b LB IB) as VB.
    destruct (Nat.eq_dec (port (op p) y) (port (op p) z)) as [EQ|NQ].
    - destruct (i_uniq _ _ _ I p (port (op p) y) a b NE) as [U|U].
      + pose proof (in_on p _ y IA) as J. rewrite U in J. destruct J.
      + pose proof (in_on p _ z IB) as J. rewrite <- EQ, U in J. destruct J.
    - assert (TWO : forall i j w v, i < j -> j < ports p -> In w (vt p i thr) -> In v (vt p j thr) -> holds_lock (op p) w = true -> holds_lock (op p) v = true ->
        2 <= count (@holds_lock V V (op p)) (concat (map (fun i => vt p i thr) (seq 0 (ports p))))).
      { intros i j w v LIJ LJ IW IV HW HV. rewrite (seq_cut (ports p) j LJ). rewrite (seq_cut j i LIJ). rewrite !map_app, !concat_app. cbn [map concat]. rewrite !count_app.
        pose proof (count_in _ _ _ IW HW). pose proof (count_in _ _ _ IV HV). lia. }
      destruct (Nat.lt_ge_cases (port (op p) y) (port (op p) z)) as [LT|GE].
      + pose proof (TWO _ _ _ _ LT PB VA VB HY HZ). lia.
      + assert (LT : port (op p) z < port (op p) y) by lia. pose proof (TWO _ _ _ _ LT PA VB VA HZ HY). lia.
  Qed.

  Lemma stk_rest : forall q S, stk q S -> forall p y R, S = TI p y :: R -> forall p' z, In (TI p' z) R -> length p <= length p'.
  Proof.
    induction 1 as [i p k l|i p e st x k l|i p e st t k l S H IH]; intros p0 y R E p' z I.
    - destruct l as [|e l]; [discriminate|]. cbn in E. injection E as <- _ <-. apply in_calls in I. destruct I as (e1 & s1 & E1). injection E1 as -> _. lia.
    - injection E as <- _ <-. apply in_calls in I. destruct I as (e1 & s1 & E1). injection E1 as -> _. lia.
    - destruct S as [|h S].
      + injection E as <- _ <-. apply in_calls in I. destruct I as (e1 & s1 & E1). injection E1 as -> _. lia.
      + cbn in E. injection E as -> <-. pose proof (stk_short _ _ H p0 y (or_introl eq_refl)) as SH. apply in_app_or in I. destruct I as [I|[I|I]].
        * eapply IH; eauto.
        * injection I as -> _. lia.
        * apply in_calls in I. destruct I as (e1 & s1 & E1). injection E1 as -> _. lia.
  Qed.

  Lemma assoc_in : forall q l x, assoc q l = Some x -> In (q, x) l.
  Proof. induction l as [|(p, x) l IH]; intros y H; [discriminate|]. cbn in H. destruct (path_dec p q); [injection H as <-; subst; now left|right; auto]. Qed.
  Lemma threads_seq : forall p (h : nat -> list (ev V * bool)) n, threads (op p) (map h (seq 0 n)) = map (fun i => map (mk (op p) i) (h i)) (seq 0 n).
  Proof.
    intros p h n. unfold threads. generalize 0. induction n as [|n IH]; intro k; auto. cbn [seq map number]. rewrite IH. f_equal. rewrite map_map. reflexivity.
  Qed.
  Lemma more_seq : forall X (f : nat -> list X) E n j k, more j E (map f (seq k n)) = map (fun i => if i =? k + j then f i ++ E else f i) (seq k n).
  Proof.
    intros X f E. induction n as [|n IH]; intros j k; [destruct j; reflexivity|]. destruct j as [|j]; cbn [seq map more].
    - rewrite Nat.add_0_r, Nat.eqb_refl. f_equal. apply map_ext_in. intros i I. apply in_seq in I. destruct (Nat.eqb_spec i k); [lia|auto].
    - rewrite IH. f_equal.
      + destruct (Nat.eqb_spec k (k + S j)); [lia|auto].
      + apply map_ext. intro i. replace (S k + j) with (k + S j) by lia. reflexivity.
  Qed.
  Lemma cons_neq : forall (i : nat) (p : path), i :: p <> p.
  Proof. intros i p E. apply (f_equal (@length nat)) in E. cbn in E. lia. Qed.

  (** Views depend on what they look at only. *)
  Lemma view_ext : forall s s' thr thr' tr tr' q, view s thr tr q -> s' q = s q -> (forall i, stream s' (i :: q) = stream s (i :: q)) ->
    (forall i, vt q i thr' = vt q i thr) -> proj q tr' = proj q tr -> view s' thr' tr' q.
  Proof.
    intros s s' thr thr' tr tr' q H E1 E2 E3 E4. unfold view in *. rewrite E1, E4.
    assert (P : progs s' q = progs s q) by (apply map_ext; intro i; now rewrite E2). rewrite P.
    erewrite map_ext; [exact H|]. intro i. cbn. apply E3.
  Qed.

  Lemma inv_step : forall s t1 p y R t2 tr s' its ls, inv s (t1 ++ (TI p y :: R) :: t2) tr ->
    tstep N stale s (TI p y) = Some (s', its, ls) -> inv s' (t1 ++ (its ++ R) :: t2) (tr ++ ls).
  Proof.
    intros s t1 p y R t2 tr s' its' ls' I H. cbn in H. destruct (istep (op p) (DD p) _ (s p) y) as [((g, its), ls)|] eqn:ST; [|discriminate].
    injection H as <- <- <-. set (thr := t1 ++ (TI p y :: R) :: t2) in *. set (a := length t1). set (i := port (op p) y).
    assert (LA : a < length srcs) by (rewrite <- (i_len _ _ _ I); unfold thr, a; rewrite app_length; cbn; lia).
    assert (LT : a < length thr) by (now rewrite (i_len _ _ _ I)).
    assert (SA : nth a thr [] = TI p y :: R) by apply nth_at.
    pose proof (i_stk _ _ _ I a LA) as STK. rewrite SA in STK.
    assert (INA : In (nth a (map fst srcs) []) (map fst srcs)) by (apply nth_In; now rewrite map_length).
    destruct (stk_edge _ _ STK p y (or_introl eq_refl)) as (r & LEAF). fold i in LEAF.
    assert (PI : i < ports p) by (eapply inports; eauto).
    pose proof (step_port (op p) (DD p) _ _ _ _ _ ST) as PORTS. fold i in PORTS.
    pose proof (step_one (op p) (DD p) _ _ _ _ _ ST) as ONE.
    assert (NOP : forall p' i' z, on p' i' (nth a thr []) = [] \/ In (TI p' z) R -> True) by auto. clear NOP.
    assert (ALONE : forall b, b <> a -> on p i (nth b thr []) = []).
    { intros b NE. destruct (i_uniq _ _ _ I p i a b) as [U|U]; auto. pose proof (in_on p (nth a thr []) y) as J. rewrite SA in J. specialize (J (or_introl eq_refl)). fold i in J. rewrite SA in U. rewrite U in J. destruct J. }
    assert (FI : filter (fun z => port (op p) z =? i) its = its).
    { clear -PORTS. induction its as [|z l IH]; auto. inversion PORTS as [|? ? PZ PL]; subst. cbn. rewrite PZ, Nat.eqb_refl, IH; auto. }
    assert (FO : forall i', i' <> i -> filter (fun z => port (op p) z =? i') its = []).
    { intros i' NE. clear -PORTS NE. induction its as [|z l IH]; auto. inversion PORTS as [|? ? PZ PL]; subst. cbn. rewrite PZ, (proj2 (Nat.eqb_neq _ _)), IH; auto. }
    (* the operator's own view, whatever is pushed above *)
    assert (OWN : forall up, (forall i', on p i' up = []) -> view (put N s p g) (t1 ++ ((up ++ map (TI p) its) ++ R) :: t2) (tr ++ map (pair p) ls) p).
    { intros up UP. unfold view. rewrite put_same, proj_app, proj_same.
      assert (P : progs (put N s p g) p = progs s p).
      { apply map_ext. intro i'. unfold stream, said. rewrite put_other by (intro Q; symmetry in Q; exact (cons_neq i' p Q)). reflexivity. }
      rewrite P. pose proof (i_view _ _ _ I p) as VW. unfold view in VW. econstructor; [exact VW|].
      rewrite (seq_cut (ports p) i PI), !map_app. cbn [map].
      replace (vt p i thr) with (y :: on p i R).
      2:{ symmetry. unfold thr. rewrite vt_one by (intros b NB; apply ALONE; exact NB). cbn [on flat_map]. rewrite on1_same. fold i. now rewrite Nat.eqb_refl. }
      replace (vt p i (t1 ++ ((up ++ map (TI p) its) ++ R) :: t2)) with (its ++ on p i R).
      2:{ symmetry. rewrite vt_one.
          - rewrite !on_app, UP, on_map, FI. reflexivity.
          - intros b NB. rewrite (nth_other _ t1 _ (TI p y :: R)) by exact NB. apply ALONE. exact NB. }
      assert (EQ : forall i', i' <> i -> vt p i' (t1 ++ ((up ++ map (TI p) its) ++ R) :: t2) = vt p i' thr).
      { intros i' NE. apply vt_same. rewrite !on_app, UP, on_map, FO by auto. cbn [app on flat_map]. rewrite on1_same. fold i. rewrite (proj2 (Nat.eqb_neq i i')) by auto. reflexivity. }
      erewrite map_ext_in with (l := seq 0 i); [|intros i' J; apply in_seq in J; symmetry; apply EQ; lia].
      erewrite map_ext_in with (l := seq (S i) (ports p - S i)); [|intros i' J; apply in_seq in J; symmetry; apply EQ; lia].
      constructor. exact ST. }
    assert (OTHER : forall q i', q <> p -> on q i' (TI p y :: R) = on q i' R) by (intros q i' NE; cbn [on flat_map]; now rewrite on1_other by auto).
    destruct (calling (op p) y) eqn:CY.
    - (* the downstream call *)
      destruct y as [|iy e st k]; [discriminate|]. destruct k as [|m|p0|p0|l t|t|x|]; try discriminate. cbn [port] in i. subst i. rename iy into i.
      destruct (step_call (op p) (DD p) _ _ _ _ _ _ _ _ _ ST) as (-> & -> & GD). cbn [map] in *.
      assert (SAID : exists l', said N (put N s p g) p = said N s p ++ l').
      { unfold said. rewrite put_same, GD. apply grows. }
      destruct SAID as (l' & SAID). rewrite SAID, skipn_app, skipn_all, Nat.sub_diag. cbn [skipn app]. rewrite app_nil_r.
      assert (NS : assoc p srcs = None).
      { destruct (assoc p srcs) as [x|] eqn:A; auto. exfalso. apply assoc_in in A. apply (in_map fst) in A. cbn in A.
        specialize (outer p _ (r ++ [i]) A INA). rewrite <- app_assoc in outer. specialize (outer LEAF). now destruct r. }
      set (up := above N stale p (length (said N s p)) l') in *.
      assert (UPON : forall q i', q <> tl p \/ p <> i' :: q -> on q i' up = []).
      { intros q i' NE. unfold up. destruct p as [|j p2]; [reflexivity|]. cbn [above tl] in *. apply on_calls_other. intro E. injection E as -> ->. destruct NE; auto. }
      assert (UPP : forall i', on p i' up = []).
      { intro i'. apply UPON. right. intro Q. symmetry in Q. exact (cons_neq i' p Q). }
      assert (EMPTY : forall j p2, p = j :: p2 -> forall b, on p2 j (nth b thr []) = []).
      { intros j p2 -> b. destruct (Nat.lt_ge_cases b (length thr)) as [LB|GB]; [|now rewrite nth_overflow by auto].
        destruct (on p2 j (nth b thr [])) as [|z zs] eqn:Z; auto. exfalso.
        assert (IZ : In z (on p2 j (nth b thr []))) by (rewrite Z; now left). apply on_in in IZ. destruct IZ as (IZ & PZ).
        destruct (Nat.eq_dec b a) as [->|NB].
        - rewrite SA in IZ. destruct IZ as [IZ|IZ]; [injection IZ as Q _; exact (cons_neq _ _ Q)|].
          pose proof (stk_rest _ _ STK _ _ _ eq_refl _ _ IZ) as SL. cbn in SL. lia.
        - assert (LB' : b < length srcs) by (now rewrite <- (i_len _ _ _ I)).
          destruct (stk_below _ _ (i_stk _ _ _ I b LB') _ _ IZ) as [Q|(i1 & e1 & s1 & t1' & Q)].
          + rewrite PZ in Q. assert (INB : In (nth b (map fst srcs) []) (map fst srcs)) by (apply nth_In; now rewrite map_length).
            rewrite Q in INB. specialize (outer _ _ (r ++ [i]) INB INA). rewrite <- app_assoc in outer. specialize (outer LEAF). now destruct r.
          + rewrite PZ in Q. apply NB. eapply (holder s thr tr (j :: p2) b a); [exact I|exact LB|exact LT|exact Q|rewrite SA; now left|reflexivity|reflexivity]. }
      constructor.
      + rewrite app_length. cbn. rewrite <- (i_len _ _ _ I). unfold thr. rewrite app_length. reflexivity.
      + intros b LB. destruct (Nat.eq_dec b a) as [->|NB].
        * unfold a at 2. rewrite nth_at. rewrite <- app_assoc. cbn [app]. eapply stk_call; [exact STK|reflexivity].
        * rewrite (nth_other _ t1 _ (TI p (IRun i e st (PCall l t)) :: R)) by exact NB. now apply I.
      + assert (U : forall q i' b, b <> a -> on q i' ((up ++ [TI p (IRun i e st (PUnlock t))]) ++ R) = [] \/ on q i' (nth b thr []) = []).
        { intros q i' b NB. destruct (path_dec p (i' :: q)) as [->|NP]; [right; apply (EMPTY i' q eq_refl)|].
          rewrite !on_app, UPON by auto. cbn [app]. destruct (path_dec q p) as [->|NQ].
          - destruct (Nat.eq_dec i' i) as [->|NI]; [right; now apply ALONE|].
            destruct (i_uniq _ _ _ I p i' a b) as [Z|Z]; auto. left. rewrite SA in Z. cbn [on flat_map] in *. rewrite on1_same in *. cbn [port] in *. rewrite (proj2 (Nat.eqb_neq i i')) in * by auto. exact Z.
          - destruct (i_uniq _ _ _ I q i' a b) as [Z|Z]; auto. left. rewrite SA, OTHER in Z by auto. cbn [on flat_map]. rewrite on1_other by auto. exact Z. }
        intros q i' b c NE. destruct (Nat.eq_dec b a) as [->|NB]; [|destruct (Nat.eq_dec c a) as [->|NC]].
        * unfold a at 1. rewrite nth_at. rewrite (nth_other _ t1 _ (TI p (IRun i e st (PCall l t)) :: R)) by auto. apply U. auto.
        * unfold a at 1. rewrite nth_at. rewrite (nth_other _ t1 _ (TI p (IRun i e st (PCall l t)) :: R)) by auto. apply or_comm. apply U. auto.
        * rewrite (nth_other _ t1 _ (TI p (IRun i e st (PCall l t)) :: R) t2 b) by auto. rewrite (nth_other _ t1 _ (TI p (IRun i e st (PCall l t)) :: R) t2 c) by auto. exact (i_uniq _ _ _ I q i' b c NE).
      + intro q. destruct (path_dec q p) as [->|NQ].
        * pose proof (OWN up UPP) as W. rewrite app_nil_r in W. exact W.
        * destruct p as [|j p2].
          -- eapply view_ext; [apply (i_view _ _ _ I q)| | | |].
             ++ apply put_other. auto.
             ++ intro i'. unfold stream, said. rewrite put_other by discriminate. reflexivity.
             ++ intro i'. apply vt_same. rewrite !on_app. unfold up. cbn [above app on flat_map]. rewrite !on1_other by auto. reflexivity.
             ++ reflexivity.
          -- destruct (path_dec q p2) as [->|NQ2].
             ++ unfold view. rewrite put_other by auto.
                pose proof (gexec_more _ j (map (mk (op p2) j) (flagged (j :: p2) (length (said N s (j :: p2))) l')) _ _ _ (i_view _ _ _ I p2)) as W. cbn [fst snd] in W.
                unfold progs in *. rewrite threads_seq in *. rewrite !more_seq in W. cbn [Nat.add] in W.
                match type of W with gexec _ (_, map ?f' _) _ (_, map ?g' _) => match goal with |- gexec _ (_, map ?f _) _ (_, map ?h _) =>
                  assert (EG : forall i0, h i0 = g' i0); [|assert (EF : forall i0, f i0 = f' i0); [|rewrite (map_ext f f' EF), (map_ext h g' EG); exact W]] end end.
                ** intro i0. cbn beta. destruct (Nat.eqb_spec i0 j) as [->|NJ].
                   --- rewrite vt_one.
                       +++ rewrite !on_app. unfold up. cbn [above]. rewrite on_calls. cbn [on flat_map]. rewrite on1_other by auto. cbn [app].
                           assert (Z1 : on p2 j R = []). { pose proof (EMPTY j p2 eq_refl a) as Z. rewrite SA, OTHER in Z by auto. exact Z. }
                           rewrite Z1, !app_nil_r. assert (Z2 : vt p2 j thr = []). { unfold thr. rewrite vt_one by (intros; apply (EMPTY j p2 eq_refl)). rewrite OTHER by auto. exact Z1. }
                           now rewrite Z2.
                       +++ intros b NB. rewrite (nth_other _ t1 _ (TI (j :: p2) (IRun i e st (PCall l t)) :: R)) by exact NB. apply (EMPTY j p2 eq_refl).
                   --- apply vt_same. rewrite !on_app, UPON by (right; congruence). cbn [app on flat_map]. rewrite !on1_other by auto. reflexivity.
                ** intro i0. cbn beta. destruct (Nat.eqb_spec i0 j) as [->|NJ].
                   --- unfold stream. rewrite NS, SAID, flagged_app, Nat.add_0_r, map_app. reflexivity.
                   --- unfold stream, said. rewrite put_other by congruence. reflexivity.
             ++ eapply view_ext; [apply (i_view _ _ _ I q)| | | |].
                ** apply put_other. auto.
                ** intro i'. unfold stream, said. rewrite put_other by congruence. reflexivity.
                ** intro i'. apply vt_same. rewrite !on_app, UPON by auto. cbn [app on flat_map]. rewrite !on1_other by auto. reflexivity.
                ** reflexivity.
    - (* any other step *)
      assert (SAID : said N (put N s p g) p = said N s p).
      { unfold said. rewrite put_same. f_equal. eapply step_down; eauto. }
      rewrite SAID, skipn_all. replace (above N stale p (length (said N s p)) []) with (@nil titem) by (destruct p; reflexivity). cbn [app].
      assert (SAME : forall q, stream (put N s p g) q = stream s q).
      { intro q. unfold stream. destruct (assoc q srcs); auto. destruct (path_dec p q) as [<-|NE]; auto. unfold said. now rewrite put_other. }
      assert (EDGE : forall q i', on q i' (TI p y :: R) = [] -> on q i' (map (TI p) its ++ R) = []).
      { intros q i' Z. rewrite on_app. cbn [on flat_map] in Z. apply app_eq_nil in Z. destruct Z as [Z1 Z2]. unfold on at 2. rewrite Z2, app_nil_r.
        destruct (path_dec q p) as [->|NQ]; [|now apply on_map_other; auto]. rewrite on_map. apply FO. intros ->. rewrite on1_same in Z1. fold i in Z1. rewrite Nat.eqb_refl in Z1. discriminate. }
      constructor.
      + rewrite app_length. cbn. rewrite <- (i_len _ _ _ I). unfold thr. rewrite app_length. reflexivity.
      + intros b LB. destruct (Nat.eq_dec b a) as [->|NB].
        * unfold a at 2. rewrite nth_at. eapply stk_plain; [exact STK|reflexivity|exact CY|exact ONE].
        * rewrite (nth_other _ t1 _ (TI p y :: R)) by exact NB. now apply I.
      + intros q i' b c NE. destruct (Nat.eq_dec b a) as [->|NB]; [|destruct (Nat.eq_dec c a) as [->|NC]].
        * unfold a at 1. rewrite nth_at. rewrite (nth_other _ t1 _ (TI p y :: R)) by auto.
          destruct (i_uniq _ _ _ I q i' a c NE) as [Z|Z]; auto. left. rewrite SA in Z. auto.
        * unfold a at 1. rewrite nth_at. rewrite (nth_other _ t1 _ (TI p y :: R)) by auto.
          destruct (i_uniq _ _ _ I q i' b a NE) as [Z|Z]; auto. right. rewrite SA in Z. auto.
        * rewrite (nth_other _ t1 _ (TI p y :: R) t2 b) by auto. rewrite (nth_other _ t1 _ (TI p y :: R) t2 c) by auto. exact (i_uniq _ _ _ I q i' b c NE).
      + intro q. destruct (path_dec q p) as [->|NQ].
        * exact (OWN [] (fun _ => eq_refl)).
        * eapply view_ext; [apply (i_view _ _ _ I q)| | | |].
          -- apply put_other. auto.
          -- intro i'. apply SAME.
          -- intro i'. apply vt_same. rewrite on_app, on_map_other, OTHER by auto. reflexivity.
          -- rewrite proj_app, proj_other, app_nil_r by auto. reflexivity.
  Qed.

  Lemma assoc_none : forall q l, assoc q l = None -> ~ In q (map fst l).
  Proof. induction l as [|(p, x) l IH]; intros H I; [destruct I|]. cbn in H, I. destruct (path_dec p q); [discriminate|]. destruct I as [I|I]; [congruence|now apply IH]. Qed.
  Lemma none_assoc : forall q l, ~ In q (map fst l) -> assoc q l = None.
  Proof. intros q l H. destruct (assoc q l) as [x|] eqn:E; auto. apply assoc_in in E. destruct H. now apply (in_map fst) in E. Qed.

  Lemma on_source : forall p i q l, on p i (source_thread N stale (q, l)) = if path_dec q (i :: p) then map (mk (op p) i) (flagged (i :: p) 0 l) else [].
  Proof.
    intros p i q l. unfold source_thread. cbn [fst snd]. destruct q as [|j q].
    - destruct (path_dec [] (i :: p)); [discriminate|reflexivity].
    - destruct (path_dec (j :: q) (i :: p)) as [E|NE].
      + injection E as -> ->. apply on_calls.
      + apply on_calls_other. congruence.
  Qed.
  Lemma vt_start : forall p i l, NoDup (map fst l) -> vt p i (map (source_thread N stale) l) =
    map (mk (op p) i) (flagged (i :: p) 0 (match assoc (i :: p) l with Some x => x | None => [] end)).
  Proof.
    intros p i. induction l as [|(q, x) l IH]; intro ND; auto. inversion ND as [|? ? NI ND']; subst. cbn [map vt flat_map assoc fst] in *. rewrite on_source.
    unfold vt in IH. rewrite IH by auto. destruct (path_dec q (i :: p)) as [->|NE]; [|reflexivity]. rewrite (none_assoc _ _ NI). now rewrite app_nil_r.
  Qed.

  Lemma inv_start : inv (t_init N) (map (source_thread N stale) srcs) [].
  Proof.
    assert (NTH : forall a, a < length srcs -> nth a (map (source_thread N stale) srcs) [] = source_thread N stale (nth a srcs ([], []))).
    { intros a L. rewrite (nth_indep _ [] (source_thread N stale ([], []))) by (now rewrite map_length). apply map_nth. }
    assert (NTF : forall a, nth a (map fst srcs) [] = fst (nth a srcs ([], []))).
    { intro a. change ([] : path) with (fst (([], []) : path * list (ev V))) at 1. apply map_nth. }
    constructor.
    - apply map_length.
    - intros a L. rewrite NTH by auto. assert (I : In (nth a (map fst srcs) []) (map fst srcs)) by (apply nth_In; now rewrite map_length).
      apply rooted in I. rewrite NTF in *. destruct (nth a srcs ([], [])) as (q, l). unfold source_thread. cbn [fst snd] in *. destruct q as [|i p]; [congruence|]. constructor.
    - intros p i a b NE. destruct (Nat.lt_ge_cases a (length srcs)) as [LA|GA]; [|left; now rewrite nth_overflow by (now rewrite map_length)].
      destruct (Nat.lt_ge_cases b (length srcs)) as [LB|GB]; [|right; now rewrite nth_overflow by (now rewrite map_length)].
      rewrite !NTH by auto. pose proof (proj1 (NoDup_nth (map fst srcs) []) distinct a b) as ND. rewrite map_length, !NTF in ND. specialize (ND LA LB).
      destruct (nth a srcs ([], [])) as (q1, l1), (nth b srcs ([], [])) as (q2, l2). cbn [fst] in ND. rewrite !on_source.
      destruct (path_dec q1 (i :: p)) as [->|]; [|now left]. destruct (path_dec q2 (i :: p)) as [->|]; [|now right]. exfalso. apply NE. auto.
    - intro p. unfold view, progs. rewrite threads_seq. cbn [proj flat_map].
      rewrite (map_ext _ (fun i => vt p i (map (source_thread N stale) srcs))); [constructor|].
      intro i. rewrite vt_start by auto. unfold stream. destruct (assoc (i :: p) srcs); auto. unfold said, t_init. cbn [g_down g_init]. now rewrite quiet.
  Qed.

  Theorem inv_exec : forall tr c, gexec (tstep N stale) (t_init N, map (source_thread N stale) srcs) tr c -> inv (fst c) (snd c) tr.
  Proof.
    intros tr c X. apply (gexec_tinv (tstep N stale) inv) with (c0 := (t_init N, map (source_thread N stale) srcs)); [|exact X|exact inv_start].
    intros s t1 (p, y) R t2 tr0 s' its ls I H. eapply inv_step; eauto.
  Qed.

  (** ** Nothing blocks *)
  Hypothesis ready : forall p s i, i < ports p -> mo_ready (op p) s i = true.

  Lemma tsteps : forall s p y r, ist p (s p) y = Some r -> exists r', tstep N stale s (TI p y) = Some r'.
  Proof. intros s p y ((g, its), ls) H. cbn. rewrite H. eauto. Qed.

  Lemma moves : forall n s thr tr a p y R, inv s thr tr -> a < length thr -> nth a thr [] = TI p y :: R -> length p < n ->
    exists ls c', gstep (tstep N stale) (s, thr) ls c'.
  Proof.
    induction n as [|n IH]; intros s thr tr a p y R I LA SA LP; [lia|].
    assert (GO : forall b q z S, b < length thr -> nth b thr [] = TI q z :: S -> (g_lock (s q) = true -> holds_lock (op q) z = true) -> exists ls c', gstep (tstep N stale) (s, thr) ls c').
    { intros b q z S LB SB HL. assert (STEP : exists r, ist q (s q) z = Some r).
      { destruct (head_steps (op q) (DD q) (s q) z HL) as [H|H]; auto. exfalso. specialize (H []).
        rewrite (i_len _ _ _ I) in LB. pose proof (i_stk _ _ _ I b LB) as STK. rewrite SB in STK. destruct (stk_edge _ _ STK q z (or_introl eq_refl)) as (r & E).
        assert (L : port (op q) z < ports q). { eapply inports; [|exact E]. apply nth_In. now rewrite map_length. }
        destruct z as [i e st|i e st k]; [destruct H|]. destruct k; try exact H. cbn in H, L. rewrite ready in H by auto. discriminate. }
      destruct STEP as (r & H). destruct (tsteps s q z r H) as (((s', its), ls) & H'). destruct (nth_split thr [] LB) as (t1 & t2 & E & _). rewrite SB in E.
      exists ls, (s', t1 ++ (its ++ S) :: t2). rewrite E. constructor. exact H'. }
    destruct (holds_lock (op p) y) eqn:HY; [exact (GO a p y R LA SA (fun _ => HY))|].
    destruct (g_lock (s p)) eqn:LK; [|exact (GO a p y R LA SA (fun H => False_ind _ (eq_true_false_abs _ H LK)))].
    pose proof (lock_count (op p) (DD p) _ _ _ _ (i_view _ _ _ I p)) as K. cbn [fst snd] in K. rewrite LK in K.
    assert (K0 : count (@holds_lock V V (op p)) (concat (threads (op p) (progs s p))) = 0).
    { apply count_zero_of. intros x IX. apply in_concat in IX. destruct IX as (t & IT & IX). unfold threads in IT. apply in_map_iff in IT. destruct IT as (u & <- & _). apply in_map_iff in IX. destruct IX as (w & <- & _). reflexivity. }
    specialize (K K0). destruct (filter (@holds_lock V V (op p)) (concat (map (fun i => vt p i thr) (seq 0 (ports p))))) as [|z zs] eqn:FZ; [unfold count in K; rewrite FZ in K; discriminate|].
    assert (IZ : In z (z :: zs)) by (now left). rewrite <- FZ in IZ. apply filter_In in IZ. destruct IZ as (IZ & HZ). apply in_concat in IZ. destruct IZ as (t & IT & IZ).
    apply in_map_iff in IT. destruct IT as (i & <- & _). apply in_vt in IZ. destruct IZ as (b & IZ & _ & LB).
    destruct (nth b thr []) as [|(q, h) S] eqn:SB; [destruct IZ|]. destruct IZ as [IZ|IZ].
    - injection IZ as -> E. apply inj_pair2_eq_dec in E; [|exact path_dec]. subst h. exact (GO b p z S LB SB (fun _ => HZ)).
    - assert (LB' : b < length srcs) by (now rewrite <- (i_len _ _ _ I)). pose proof (i_stk _ _ _ I b LB') as STK. rewrite SB in STK.
      pose proof (stk_top _ _ STK q h S eq_refl p z IZ HZ) as SH. eapply (IH s thr tr b q h S); eauto. lia.
  Qed.

  Theorem tree_progress : forall tr c, gexec (tstep N stale) (t_init N, map (source_thread N stale) srcs) tr c ->
    gfinished c \/ exists ls c', gstep (tstep N stale) c ls c'.
  Proof.
    intros tr (s, thr) X. apply inv_exec in X. cbn [fst snd] in X.
    assert (D : (forall t, In t thr -> t = []) \/ exists t, In t thr /\ t <> []).
    { clear. induction thr as [|t l IH]; [left; intros t []|]. destruct t as [|x t]; [|right; exists (x :: t); split; [now left|discriminate]].
      destruct IH as [IH|(t & I & NE)]; [left; intros t [<-|I]; auto|right; exists t; split; [now right|auto]]. }
    destruct D as [D|(t & I & NE)]; [left; exact D|right]. apply (In_nth _ _ []) in I. destruct I as (a & LA & E). destruct t as [|(p, y) R]; [congruence|].
    eapply (moves (S (length p))); eauto.
  Qed.

  (** ** At the end *)
  Theorem tree_end : forall tr c, gexec (tstep N stale) (t_init N, map (source_thread N stale) srcs) tr c -> gfinished c ->
    forall p, exists c', gexec (ist p) (g_init (op p) (DD p) (nd_d0 (N p)), threads (op p) (progs (fst c) p)) (proj p tr) c' /\
      gfinished c' /\ fst c' = fst c p.
  Proof.
    intros tr (s, thr) X F p. apply inv_exec in X. pose proof (i_view _ _ _ X p) as VW. unfold view in VW. cbn [fst snd] in *. eexists. split; [exact VW|]. split; [|reflexivity].
    intros t I. cbn [snd] in I. apply in_map_iff in I. destruct I as (i & <- & _). unfold vt. assert (Z : forall l, (forall t, In t l -> t = []) -> flat_map (on p i) l = []).
    { induction l as [|u l IH]; intro H; auto. cbn. rewrite (H u (or_introl eq_refl)), IH; auto. intros; apply H; now right. }
    apply Z. exact F.
  Qed.
End Tree.
