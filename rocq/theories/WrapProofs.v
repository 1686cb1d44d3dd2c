(** Proofs about WrapModel. *)
From Verif Require Import Base WrapSpec WrapModel.

Section P.
  Lemma upd_eq : forall X (f : nat -> X) i v, upd f i v i = v.
  Proof. intros. unfold upd. now rewrite Nat.eqb_refl. Qed.
  Lemma upd_ne : forall X (f : nat -> X) i v j, j <> i -> upd f i v j = f j.
  Proof. intros. unfold upd. now rewrite (proj2 (Nat.eqb_neq j i)). Qed.

  Fixpoint sumn (f : nat -> nat) (n : nat) : nat := match n with 0 => 0 | S n => f n + sumn f n end.
  Lemma sumn_ext : forall f g n, (forall p, p < n -> f p = g p) -> sumn f n = sumn g n.
  Proof. induction n as [|n IH]; intro H; cbn; auto. rewrite H, IH; auto. Qed.
  Lemma sumn_upd : forall X (h : X -> nat) k p v n, p < n -> sumn (fun q => h (upd k p v q)) n + h (k p) = sumn (fun q => h (k q)) n + h v.
  Proof.
    intros X h k p v n. induction n as [|n IH]; intro L; [lia|]. cbn. destruct (Nat.eq_dec p n) as [->|N].
    - rewrite upd_eq. rewrite (sumn_ext (fun q => h (upd k n v q)) (fun q => h (k q))); [lia|]. intros q Q. rewrite upd_ne by lia. auto.
    - rewrite upd_ne by auto. specialize (IH ltac:(lia)). lia.
  Qed.
  Lemma sumn_fresh : forall X (h : X -> nat) k v n, sumn (fun q => h (upd k n v q)) (S n) = h v + sumn (fun q => h (k q)) n.
  Proof. intros. cbn. rewrite upd_eq. f_equal. apply sumn_ext. intros q Q. rewrite upd_ne by lia. auto. Qed.

  Fixpoint lsum (l : list nat) : nat := match l with [] => 0 | x :: r => x + lsum r end.
  Lemma lsum_app : forall a b, lsum (a ++ b) = lsum a + lsum b.
  Proof. induction a as [|x a IH]; intro b; cbn; auto. rewrite IH. lia. Qed.
  Definition so (o : nat) (w : wrap) : nat := match w with WStrong x => if x =? o then 1 else 0 | _ => 0 end.
  Arguments so : simpl never.
  Definition cl (o : nat) (l : list wrap) : nat := lsum (map (so o) l).
  Definition ca (o : nat) (a : wact) : nat := match a with ADrop w => so o w | _ => 0 end.
  Definition ct (o : nat) (l : list wact) : nat := lsum (map (ca o) l).
  Definition tot (s : ws) (o : nat) : nat :=
    cl o (w_slots s) + sumn (fun p => cl o (w_kids s p)) (w_n s) + sumn (fun p => so o (w_state s p)) (w_n s) + ct o (w_todo s).

  Lemma so_e : forall o, so o WEmpty = 0.
  Proof. reflexivity. Qed.
  Lemma so_s : forall q o, so q (WStrong o) = if q =? o then 1 else 0.
  Proof. intros. unfold so. now rewrite Nat.eqb_sym. Qed.
  Lemma so_w : forall o x, so o (WWeak x) = 0.
  Proof. reflexivity. Qed.
  Lemma cl_nil : forall o, cl o [] = 0.
  Proof. reflexivity. Qed.
  Lemma cl_one : forall o w, cl o [w] = so o w.
  Proof. intros. unfold cl. cbn. lia. Qed.
  Lemma cl_app : forall o a b, cl o (a ++ b) = cl o a + cl o b.
  Proof. intros. unfold cl. now rewrite map_app, lsum_app. Qed.
  Lemma ct_app : forall o a b, ct o (a ++ b) = ct o a + ct o b.
  Proof. intros. unfold ct. now rewrite map_app, lsum_app. Qed.
  Lemma ct_drop : forall o l, ct o (map ADrop l) = cl o l.
  Proof. intros. unfold ct, cl. now rewrite map_map. Qed.
  Lemma ct_dispw : forall o l, ct o (map ADispW l) = 0.
  Proof. intros o l. unfold ct. rewrite map_map. induction l; cbn; auto. Qed.
  Lemma cl_put : forall o l v w, v < length l -> cl o (put l v w) + so o (nth v l WEmpty) = cl o l + so o w.
  Proof.
    unfold cl. induction l as [|x l IH]; intros v w L; [cbn in L; lia|]. destruct v; cbn in *; [lia|].
    specialize (IH v w ltac:(lia)). lia.
  Qed.
  Lemma cl_filter : forall o f l, cl o (filter f l) + cl o (filter (fun x => negb (f x)) l) = cl o l.
  Proof. unfold cl. induction l as [|x l IH]; cbn; auto. destruct (f x); cbn; lia. Qed.
  Lemma own_so : forall c w o, own c w o = c o + so o w.
  Proof. intros c [|x|x] o; unfold so; cbn; auto. unfold upd. rewrite Nat.eqb_sym. destruct (Nat.eqb_spec x o) as [->|N]; lia. Qed.
  Lemma put_len : forall l v w, length (put l v w) = length l.
  Proof. induction l; intros [|v] w; cbn; auto. Qed.
  Lemma in_put : forall l v w x, In x (put l v w) -> x = w \/ In x l.
  Proof. induction l as [|y l IH]; intros [|v] w x I; cbn in *; intuition; subst; auto. apply IH in H as [|]; auto. Qed.
  Lemma cl_in : forall o l, In (WStrong o) l -> 0 < cl o l.
  Proof. unfold cl. induction l as [|x l IH]; cbn; intros []; [subst; unfold so; rewrite Nat.eqb_refl; lia|]. specialize (IH H). lia. Qed.
  Lemma cl_pos : forall o l, 0 < cl o l -> In (WStrong o) l.
  Proof.
    unfold cl. induction l as [|x l IH]; cbn; [lia|]. intro H. destruct x as [|y|y]; unfold so at 1 in H; auto.
    destruct (Nat.eqb_spec y o) as [->|N]; auto.
  Qed.
  Lemma sumn_pos : forall f n, 0 < sumn f n -> exists p, p < n /\ 0 < f p.
  Proof. induction n as [|n IH]; cbn; [lia|]. intro H. destruct (f n) eqn:F; [destruct IH as (p & L & P); [lia|exists p; auto]|exists n; lia]. Qed.
  Lemma sumn_ge : forall f n p, p < n -> f p <= sumn f n.
  Proof. induction n as [|n IH]; cbn; intros p L; [lia|]. destruct (Nat.eq_dec p n) as [->|N]; [lia|]. specialize (IH p ltac:(lia)). lia. Qed.

  (** ** Everything refers to objects that exist *)
  Definition ok (n : nat) (w : wrap) : Prop := match w with WEmpty => True | WStrong o | WWeak o => o < n end.
  Definition oka (n : nat) (a : wact) : Prop :=
    match a with
    | AUser _ => True
    | ADispW w | ADrop w => ok n w
    | ADisp o _ | ARemSelf o | AState o | AClr o => o < n
    | AAdd p w | ARem p w => p < n /\ ok n w
    end.
  Record RG (s : ws) : Prop := MkRG {
    g_slots : forall w, In w (w_slots s) -> ok (w_n s) w;
    g_kids : forall p w, In w (w_kids s p) -> ok (w_n s) w;
    g_state : forall p, ok (w_n s) (w_state s p);
    g_todo : forall a, In a (w_todo s) -> oka (w_n s) a;
    g_kids0 : forall p, w_n s <= p -> w_kids s p = [];
    g_state0 : forall p, w_n s <= p -> w_state s p = WEmpty;
    g_fresh : forall p, w_n s <= p -> w_cnt s p = 0 /\ w_gone s p = false /\ w_disp s p = false
  }.
  Lemma ok_S : forall n w, ok n w -> ok (S n) w.
  Proof. intros n [|o|o]; cbn; auto. Qed.
  Lemma oka_S : forall n a, oka n a -> oka (S n) a.
  Proof. intros n [x|w|o b|o|o|o|p w|p w|w]; cbn; auto using ok_S. all: intros [A B]; split; auto using ok_S. Qed.
  Lemma ok_nth : forall n l v, (forall w, In w l -> ok n w) -> ok n (nth v l WEmpty).
  Proof. intros n l v H. destruct (nth_in_or_default v l WEmpty) as [I|E]; auto. rewrite E. exact I. Qed.
  Lemma ok_target : forall s n w o, ok n w -> target s w = Some o -> o < n.
  Proof. intros s n [|x|x] o K; cbn; [discriminate| |]; destruct (w_gone s x); intros [= <-]; auto. Qed.
  Lemma ok_aw : forall n w, ok n w -> ok n (as_weak w).
  Proof. intros n [|o|o]; auto. Qed.
  Lemma target_gone : forall s w o, target s w = Some o -> w_gone s o = false.
  Proof. intros s [|x|x] o; cbn; [discriminate| |]; destruct (w_gone s x) eqn:G; congruence. Qed.

  Record CI (s : ws) : Prop := MkCI {
    c_cnt : forall o, w_cnt s o = tot s o;
    c_gone : forall o, w_gone s o = true -> w_cnt s o = 0;
    c_alive : forall o, o < w_n s -> w_gone s o = false -> 0 < w_cnt s o
  }.

  Definition wwith (s : ws) (l : list wact) : ws :=
    WS (w_slots s) (w_n s) (w_cnt s) (w_gone s) (w_disp s) (w_kids s) (w_self s) (w_state s) l.

  Ltac casew X :=
    match type of X with
    | wexec _ ?a = _ => destruct a as [[v|v w strong|v w|v w|v|v|v w|v w]|w|o destr|o|o|o|p w|p w|[|o|o]]
    end; cbn [wexec] in X;
    repeat match type of X with
      | match ?b with Some _ => _ | None => _ end = _ => let B := fresh "B" in destruct b eqn:B
      | (if ?b then _ else _) = _ => let B := fresh "B" in destruct b eqn:B
      | match ?b with 0 => _ | S _ => _ end = _ => let B := fresh "B" in destruct b eqn:B
    end; injection X as <- <- <-.

  Lemma RG_step : forall s a r s' l e, RG s -> w_todo s = a :: r -> wexec s a = (s', l, e) -> RG (wwith s' (l ++ r)).
  Proof.
    intros [sl n c g d k sf st td] a r s' l e [H1 H2 H3 H4 H5 H6 H7] TD X. cbn [w_slots w_n w_cnt w_gone w_disp w_kids w_self w_state w_todo] in *. subst td.
    assert (OA : oka n a) by (apply H4; now left). assert (OR : forall b, In b r -> oka n b) by (intros; apply H4; now right).
    pose proof (fun v => ok_nth n sl v H1) as ON.
    casew X; unfold wwith; cbn [w_slots w_n w_cnt w_gone w_disp w_kids w_self w_state w_todo oka] in *.
    all: try match goal with B : (_ <? _) = true |- _ => apply Nat.ltb_lt in B end.
    all: try match goal with B : target _ _ = Some _ |- _ => let L := fresh "L" in assert (L := B); eapply ok_target in L; [|first [apply ON|apply H3|apply OA]] end.
    all: split; cbn [w_slots w_n w_cnt w_gone w_disp w_kids w_self w_state w_todo]; auto.
    all: try (intros x I; apply in_put in I as [->|I]; cbn; auto using ok_S, ok_aw; fail).
    all: try (intros a I; apply in_app_or in I as [I|I]; [|auto using oka_S]; cbn in I; intuition (subst; cbn; auto using ok_S, ok_aw); fail).
    all: try (intros q x I; eauto using ok_S; fail).
    all: try (intros q; auto using ok_S; fail).
    all: try (intros q Q; first [apply H5; lia | apply H6; lia]).
    all: try (intros q Q; destruct (H7 q ltac:(lia)) as (Q1 & Q2 & Q3); rewrite ?own_so; unfold upd; unfold so;
              repeat match goal with |- context [?a =? ?b] => destruct (Nat.eqb_spec a b); [lia|] end; auto; fail).
    - intros q. unfold upd. destruct (Nat.eqb_spec q n); [destruct strong; cbn; lia|auto using ok_S].
    - intros a I. apply in_app_or in I as [I|I]; [|auto using oka_S]. destruct I as [<-|[<-|[<-|[]]]]; cbn; auto using ok_S. split; [lia|]. destruct strong; cbn; lia.
    - intros q Q. rewrite upd_ne by lia. apply H6. lia.
    - intros q Q. destruct (H7 q ltac:(lia)) as (Q1 & Q2 & Q3). rewrite upd_ne by lia. rewrite own_so, upd_ne, Q1 by lia.
      destruct strong; unfold so; auto. destruct (Nat.eqb_spec n0 q); [lia|auto].
    - intros q Q. destruct (H7 q ltac:(lia)) as (Q1 & Q2 & Q3). rewrite own_so. specialize (ON w). destruct (nth w sl WEmpty); unfold so; cbn in ON; rewrite ?Q1; auto.
      destruct (Nat.eqb_spec o q); [lia|auto].
    - intros a I. apply in_app_or in I as [I|I]; auto. apply in_app_or in I as [I|[<-|I]]; cbn; auto.
      + destruct destr; [destruct I|]. destruct I as [<-|[]]. auto.
      + apply in_app_or in I as [I|[<-|[]]]; cbn; auto. apply in_map_iff in I as (x & <- & I). cbn. eauto.
    - intros a I. apply in_app_or in I as [[<-|[<-|[]]]|I]; cbn; auto. split; auto. unfold from_this. destruct (_ && _)%bool; cbn; auto.
    - intros q. unfold upd. destruct (q =? o); cbn; auto.
    - intros q x I. unfold upd in I. destruct (q =? o); [destruct I|eauto].
    - intros a I. apply in_app_or in I as [I|I]; auto. apply in_map_iff in I as (x & <- & I). cbn. eauto.
    - intros q x I. unfold upd in I. destruct (q =? p); [|eauto]. apply in_app_or in I as [I|[<-|[]]]; eauto. apply OA.
    - intros q Q. destruct (H7 q ltac:(lia)) as (Q1 & Q2 & Q3). rewrite own_so. destruct OA as (_ & OA). destruct w; unfold so; cbn in OA; rewrite ?Q1; auto.
      destruct (Nat.eqb_spec o q); [lia|auto].
    - intros q x I. unfold upd in I. destruct (q =? p); [apply filter_In in I as (I & _)|]; eauto.
    - intros a I. apply in_app_or in I as [I|I]; auto. apply in_map_iff in I as (x & <- & I). apply filter_In in I as (I & _). cbn. eauto.
    - intros q Q; destruct (H7 q ltac:(lia)) as (Q1 & Q2 & Q3); cbn in OA; rewrite ?upd_ne by lia; auto.
    - intros q Q; destruct (H7 q ltac:(lia)) as (Q1 & Q2 & Q3); cbn in OA; rewrite ?upd_ne by lia; auto.
    - intros q Q; destruct (H7 q ltac:(lia)) as (Q1 & Q2 & Q3); cbn in OA; rewrite ?upd_ne by lia; auto.
  Qed.

  (** ** The owner counts are right *)
  Lemma target_ok : forall s w o, target s w = Some o -> (w = WStrong o \/ w = WWeak o) /\ w_gone s o = false.
  Proof. intros s [|x|x] o; cbn; [discriminate| |]; destruct (w_gone s x) eqn:G; intros [= <-]; auto. Qed.
  Lemma nth_so : forall o l v, so o (nth v l WEmpty) <= cl o l.
  Proof. unfold cl. induction l as [|x l IH]; intros v; [destruct v; cbn; unfold so; lia|]. destruct v; cbn; [lia|]. specialize (IH v). lia. Qed.
  Lemma ct_cons : forall o a r, ct o (a :: r) = ca o a + ct o r.
  Proof. reflexivity. Qed.

  Lemma CI_step : forall s a r s' l e, RG s -> CI s -> w_todo s = a :: r -> wexec s a = (s', l, e) -> CI (wwith s' (l ++ r)).
  Proof.
    intros [sl n c g d k sf st td] a r s' l e [H1 H2 H3 H4 H5 H6 H7] [C1 C2 C3] TD X.
    unfold tot in C1. cbn [w_slots w_n w_cnt w_gone w_disp w_kids w_self w_state w_todo] in *. subst td.
    assert (OA : oka n a) by (apply H4; now left).
    pose proof (fun v => ok_nth n sl v H1) as ON.
    assert (FR : forall o, n <= o -> cl o sl + sumn (fun p => cl o (k p)) n + sumn (fun p => so o (st p)) n + ct o (a :: r) = 0).
    { intros o L. rewrite <- C1. apply H7. auto. }
    assert (KG : forall x q, g x = false -> g q = true -> so q (WStrong x) = 0).
    { intros x q A B. unfold so. destruct (Nat.eqb_spec x q); [congruence|auto]. }
    pose proof C1 as CC.
    assert (UN : forall q, upd c n 1 q = c q + so q (WStrong n)).
    { intro q. unfold upd, so. rewrite (Nat.eqb_sym n q). destruct (Nat.eqb_spec q n) as [->|]; [|lia]. rewrite (proj1 (H7 n (le_n _))). auto. }
    assert (UO : forall f x q, upd f x (S (f x)) q = f q + so q (WStrong x)) by (intros f x q; apply (own_so f (WStrong x) q)).
    assert (NG : g n = false) by apply (H7 n (le_n _)).
    assert (LK : forall x, own c (WStrong x) = upd c x (S (c x))) by reflexivity.
    casew X; unfold wwith; cbn [w_slots w_n w_cnt w_gone w_disp w_kids w_self w_state w_todo oka] in *.
    all: try match goal with B : (_ <? _) = true |- _ => apply Nat.ltb_lt in B end.
    all: try match goal with B : target _ _ = Some _ |- _ => 
       let L := fresh "L" in assert (L := B); eapply ok_target in L; [|first [apply ON|apply H3|apply OA]];
       let G := fresh "G" in assert (G := B); apply target_gone in G; cbn [w_gone] in G end.
    all: rewrite <- ?LK.
    all: split; unfold tot; cbn [w_slots w_n w_cnt w_gone w_disp w_kids w_self w_state w_todo]; auto.
    all: intros q; try specialize (C1 q); try specialize (C2 q); try specialize (C3 q); pose proof (FR q) as FQ; pose proof (fun x => KG x q) as KQ;
         pose proof (fun w v L => cl_put q sl v w L) as CP; pose proof (fun v => nth_so q sl v) as NS;
         cbn [app] in *; rewrite ?ct_cons, ?ct_app, ?ct_drop, ?ct_dispw, ?own_so in *; cbn [ca] in *.
    all: try lia.
    all: try (intro Q; rewrite C2 by auto; rewrite KQ by auto; reflexivity).
    all: try (intros Q1 Q2; specialize (C3 Q1 Q2); lia).
    - rewrite UN. cbn [sumn]. rewrite (H5 n), (H6 n) by auto. specialize (CP (WStrong n) v B). rewrite so_e, cl_nil. lia.
    - intro Q. rewrite UN, C2, KG; auto.
    - intros Q1 Q2. rewrite UN. destruct (Nat.eq_dec q n) as [->|N]; [unfold so; rewrite Nat.eqb_refl; lia|]. specialize (C3 ltac:(lia) Q2). lia.
    - rewrite <- (own_so (upd c n 1) _ n0), UO, own_so, UN. rewrite (sumn_fresh wrap (so q)). cbn [sumn]. rewrite (H5 n) by auto. specialize (CP (WStrong n) v B0). rewrite cl_nil. lia.
    - intro Q. rewrite <- (own_so (upd c n 1) _ n0), UO, own_so, UN, C2 by auto. rewrite (KG n), (KG n0) by auto. destruct strong; cbn; auto. rewrite (KG n0) by auto. auto.
    - intros Q1 Q2. rewrite <- (own_so (upd c n 1) _ n0), UO, own_so, UN. destruct (Nat.eq_dec q n) as [->|N]; [assert (so n (WStrong n) = 1) by (unfold so; now rewrite Nat.eqb_refl); lia|]. specialize (C3 ltac:(lia) Q2). lia.
    - specialize (CP (nth w sl WEmpty) v B). lia.
    - intro Q. specialize (C2 Q). specialize (NS w). lia.
    - specialize (CP (as_weak (nth w sl WEmpty)) v B). assert (so q (as_weak (nth w sl WEmpty)) = 0) by (destruct (nth w sl WEmpty); auto). lia.
    - specialize (CP WEmpty v B). rewrite so_e in CP. lia.
    - assert (ct q (if destr then [] else [ARemSelf o]) = 0) by (destruct destr; auto).
      rewrite ct_cons, ct_app, ct_dispw. unfold ct at 2. cbn [map lsum ca]. lia.
    - pose proof (sumn_upd wrap (so q) st o WEmpty n OA) as Z. rewrite so_e in Z. lia.
    - pose proof (sumn_upd _ (cl q) k o [] n OA) as Z. rewrite cl_nil in Z. lia.
    - pose proof (sumn_upd _ (cl q) k p (k p ++ [w]) n (proj1 OA)) as Z. rewrite cl_app, cl_one in Z. lia.
    - intro Q. rewrite C2 by auto. destruct (target_ok _ _ _ B) as ([->| ->] & _); auto. rewrite KG; auto.
    - match goal with |- context [upd k p ?x] => pose proof (sumn_upd _ (cl q) k p x n (proj1 OA)) as Z end.
      match goal with |- context [cl q (filter ?f (k p)) + ct q r] => pose proof (cl_filter q f (k p)) as Z2 end.
      cbv beta in Z2. lia.
    - unfold upd. rewrite so_s in C1. destruct (q =? o) eqn:Q; [apply Nat.eqb_eq in Q; rewrite Q in *; lia|lia].
    - intro Q. unfold upd. destruct (Nat.eqb_spec q o); auto.
    - exfalso. pose proof (CC o) as Z. rewrite ct_cons in Z. cbn [ca] in Z. rewrite so_s, Nat.eqb_refl in Z. lia.
    - unfold upd. rewrite so_s in C1. destruct (q =? o) eqn:Q; [apply Nat.eqb_eq in Q; rewrite Q in *; lia|lia].
    - unfold upd. intro Q. destruct (Nat.eqb_spec q o); auto.
    - intros Q1. unfold upd. destruct (Nat.eqb_spec q o) as [->|N]; [discriminate|auto].
    - unfold upd. rewrite so_s in C1. destruct (q =? o) eqn:Q; [apply Nat.eqb_eq in Q; rewrite Q in *; lia|lia].
    - intro Q. unfold upd. destruct (Nat.eqb_spec q o) as [->|N]; auto. rewrite C2 in B by auto. lia.
    - intros Q1 Q2. unfold upd. destruct (Nat.eqb_spec q o) as [->|N]; auto. lia.
  Qed.

  (** ** Disposed once, for a reason, at the latest with the last owner *)
  Definition wobj (w : wrap) : option nat := match w with WEmpty => None | WStrong o | WWeak o => Some o end.
  Record DI (s : ws) (tr : list wev) : Prop := MkDI {
    d_gone : forall o, w_gone s o = true -> w_disp s o = true \/ In (ADisp o true) (w_todo s);
    d_once : forall o, disposals tr o = if w_disp s o then 1 else 0;
    d_last : forall o, w_gone s o = true <-> In (ELast o) tr;
    d_reason : forall o, w_disp s o = true -> reason tr o;
    d_pend : forall o b, In (ADisp o b) (w_todo s) -> reason tr o;
    d_pendw : forall w o, In (ADispW w) (w_todo s) -> wobj w = Some o -> reason tr o;
    d_kids : forall p w o, In w (w_kids s p) -> wobj w = Some o -> In (EAdd p o) tr
  }.
  Lemma reason_app : forall tr e o, reason tr o -> reason (tr ++ e) o.
  Proof. intros tr e o [H|[H|[H|(p & H & H')]]]; [left|right; left|right; right; left|right; right; right; exists p; split]; apply in_or_app; auto. Qed.
  Lemma disp_in : forall tr o, In (EDisp o) tr -> 0 < disposals tr o.
  Proof.
    unfold disposals. induction tr as [|e tr IH]; intros o []; cbn.
    - subst e. cbn. rewrite Nat.eqb_refl. cbn. lia.
    - destruct (is_disp o e); cbn; auto. specialize (IH o H). lia.
  Qed.
  Lemma disposals_app : forall a b o, disposals (a ++ b) o = disposals a o + disposals b o.
  Proof. intros. unfold disposals. now rewrite filter_app, app_length. Qed.
  Lemma disposals_in : forall tr o, 0 < disposals tr o -> In (EDisp o) tr.
  Proof.
    unfold disposals. induction tr as [|e tr IH]; intros o; cbn; [lia|]. destruct (is_disp o e) eqn:E; intro H; auto.
    destruct e; cbn in E; try discriminate. apply Nat.eqb_eq in E. subst. auto.
  Qed.
  Lemma wobj_target : forall s w o, wobj w = Some o -> target s w = if w_gone s o then None else Some o.
  Proof. intros s [|x|x] o; cbn; [discriminate| |]; intros [= <-]; auto. Qed.
  Lemma target_wobj : forall s w o, target s w = Some o -> wobj w = Some o.
  Proof. intros s [|x|x] o; cbn; [discriminate| |]; destruct (w_gone s x); congruence. Qed.
  Lemma in_l_app : forall X (x : X) a b, In x a -> In x (a ++ b).
  Proof. intros. apply in_or_app. auto. Qed.
  Hint Resolve reason_app in_l_app : core.

  Lemma DI_step : forall s tr a r s' l e, CI s -> DI s tr -> w_todo s = a :: r -> wexec s a = (s', l, e) -> DI (wwith s' (l ++ r)) (tr ++ e).
  Proof.
    intros [sl n c g d k sf st td] tr a r s' l e [C1 C2 C3] [H1 H2 H3 H4 H5 H6 H7] TD X.
    cbn [w_slots w_n w_cnt w_gone w_disp w_kids w_self w_state w_todo] in *. subst td.
    assert (GR : forall w o, wobj w = Some o -> target (WS sl n c g d k sf st (a :: r)) w = None -> In (ELast o) tr).
    { intros w o W T. rewrite (wobj_target _ _ _ W) in T. cbn in T. destruct (g o) eqn:G; [|discriminate]. now apply H3. }
    assert (TG : forall w o, target (WS sl n c g d k sf st (a :: r)) w = Some o -> wobj w = Some o) by (intros w o; apply target_wobj).
    assert (R5 : forall o b, In (ADisp o b) r -> reason tr o) by (intros; eapply H5; right; eauto).
    assert (R6 : forall w o, In (ADispW w) r -> wobj w = Some o -> reason tr o) by (intros; eapply H6; [right|]; eauto).
    casew X; unfold wwith; cbn [w_slots w_n w_cnt w_gone w_disp w_kids w_self w_state w_todo] in *.
    all: split; cbn [w_slots w_n w_cnt w_gone w_disp w_kids w_self w_state w_todo]; auto.
    all: try (intros q Q; destruct (H1 q Q) as [Z|[Z|Z]]; [auto|try discriminate Z|right; apply in_or_app; auto]; fail).
    all: try (intros q; rewrite disposals_app, H2; cbn; lia).
    all: try (intros q; rewrite H3; split; [auto|intro Z; apply in_app_or in Z as [Z|Z]; [auto|cbn in Z; intuition discriminate]]; fail).
    all: try (intros q b Z; apply reason_app; apply in_app_or in Z as [Z|Z]; [cbn in Z; intuition discriminate|eauto]; fail).
    all: try (intros x q Z W; apply reason_app; apply in_app_or in Z as [Z|Z]; [cbn in Z; intuition discriminate|eauto]; fail).
    all: try (intros q x y I W; apply in_or_app; left; eauto; fail).
    all: try (intros q b Z; apply reason_app; eauto; fail).
    all: try (intros x q Z W; apply reason_app; eauto; fail).
    - intros q. rewrite disposals_app, H2. destruct (target _ _); cbn; lia.
    - intros q. rewrite H3. split; [auto|]. intro Z. apply in_app_or in Z as [Z|Z]; auto. destruct (target _ _); cbn in Z; intuition discriminate.
    - intros x q Z W. apply in_app_or in Z as [[Z|[]]|Z]; [|eauto]. injection Z as <-.
      destruct (target _ _) eqn:T; [|apply reason_app; right; left; eauto].
      apply TG in T. rewrite T in W. injection W as <-. left. apply in_or_app. right. now left.
    - intros q. rewrite disposals_app, H2. destruct (target _ (nth w sl WEmpty)); cbn; lia.
    - intros q. rewrite H3. split; [auto|]. intro Z. apply in_app_or in Z as [Z|Z]; auto. destruct (target _ (nth w sl WEmpty)); cbn in Z; intuition discriminate.
    - intros x q Z W. apply in_app_or in Z as [[Z|[]]|Z]; [|eauto]. injection Z as <-.
      destruct (target _ (nth w sl WEmpty)) eqn:T; [|apply reason_app; right; left; eauto].
      apply TG in T. rewrite T in W. injection W as <-. right. right. left. apply in_or_app. right. now left.
    - intros q b Z. apply reason_app. apply in_app_or in Z as [[Z|[Z|[]]]|Z]; [|discriminate|eauto]. injection Z as <- _. apply (H6 w); auto. now left.
    - intros q Q. destruct (H1 q Q) as [Z|[Z|Z]]; auto. injection Z as -> _. auto.
    - intros q Q. unfold upd. destruct (Nat.eqb_spec q o) as [->|N]; auto. destruct (H1 q Q) as [Z|[Z|Z]]; auto; [congruence|right; apply in_or_app; auto].
    - intros q. rewrite disposals_app, H2. unfold upd, disposals. cbn [filter is_disp]. rewrite (Nat.eqb_sym o q). destruct (Nat.eqb_spec q o) as [->|N]; cbn; [rewrite B; lia|lia].
    - intros q Q. apply reason_app. unfold upd in Q. destruct (q =? o) eqn:N; auto. apply Nat.eqb_eq in N. subst q. apply (H5 o destr). now left.
    - intros q b Z. apply reason_app. apply in_app_or in Z as [Z|Z]; [|eauto]. apply in_app_or in Z as [Z|[Z|Z]]; [destruct destr; cbn in Z; intuition discriminate|discriminate|].
      apply in_app_or in Z as [Z|[Z|[]]]; [|discriminate]. apply in_map_iff in Z as (? & Z & _). discriminate.
    - intros x q Z W. apply in_app_or in Z as [Z|Z]; [|apply reason_app; eauto]. apply in_app_or in Z as [Z|[Z|Z]]; [destruct destr; cbn in Z; intuition discriminate|discriminate|].
      apply in_app_or in Z as [Z|[Z|[]]]; [|discriminate]. apply in_map_iff in Z as (y & [= ->] & Z).
      right. right. right. exists o. split; apply in_or_app; [left; eauto|right; now left].
    - intros q b Z. apply reason_app. apply in_app_or in Z as [Z|Z]; [|eauto]. apply in_map_iff in Z as (? & Z & _). discriminate.
    - intros x q Z W. apply reason_app. apply in_app_or in Z as [Z|Z]; [|eauto]. apply in_map_iff in Z as (? & Z & _). discriminate.
    - intros q x y I W. unfold upd in I. destruct (q =? o); [destruct I|]. apply in_or_app. eauto.
    - intros x q Z W. apply in_app_or in Z as [[Z|[]]|Z]; [|apply reason_app; eauto]. injection Z as <-. apply TG in B. rewrite B in W. injection W as <-.
      right. right. left. apply in_or_app. right. now left.
    - intros q x y I W. unfold upd in I. destruct (Nat.eqb_spec q p) as [->|N]; [|apply in_or_app; eauto]. apply in_app_or in I as [I|[<-|[]]]; [apply in_or_app; eauto|].
      apply TG in B. rewrite B in W. injection W as <-. apply in_or_app. right. now left.
    - intros q b Z. apply reason_app. apply in_app_or in Z as [Z|Z]; [|eauto]. apply in_map_iff in Z as (? & Z & _). discriminate.
    - intros x q Z W. apply reason_app. apply in_app_or in Z as [Z|Z]; [|eauto]. apply in_map_iff in Z as (? & Z & _). discriminate.
    - intros q x y I W. unfold upd in I. apply in_or_app. left. destruct (Nat.eqb_spec q p) as [->|N]; eauto. apply filter_In in I as (I & _). eauto.
    - intros q Q. unfold upd in Q. destruct (q =? o) eqn:N; [apply Nat.eqb_eq in N; subst q; right; now left|]. destruct (H1 q Q) as [Z|[Z|Z]]; auto; [discriminate|right; now right].
    - intros q. unfold upd. destruct (Nat.eqb_spec q o) as [->|N].
      + split; auto. intros _. apply in_or_app. right. now left.
      + rewrite H3. split; [auto|]. intro Z. apply in_app_or in Z as [Z|[Z|[]]]; auto. congruence.
    - intros q b Z. apply in_app_or in Z as [[Z|[]]|Z]; [|apply reason_app; eauto]. injection Z as <- _. right. left. apply in_or_app. right. now left.
  Qed.

  (** ** All executions *)
  Lemma wstep_inv : forall s tr s' e, RG s -> CI s -> DI s tr -> wstep s = (s', e) -> RG s' /\ CI s' /\ DI s' (tr ++ e).
  Proof.
    intros s tr s' e A B C E. unfold wstep in E. destruct (w_todo s) as [|a r] eqn:T.
    - injection E as <- <-. rewrite app_nil_r. auto.
    - destruct (wexec s a) as [[s1 l] e1] eqn:X. injection E as <- <-.
      split; [exact (RG_step _ _ _ _ _ _ A T X)|]. split; [exact (CI_step _ _ _ _ _ _ A B T X)|exact (DI_step _ _ _ _ _ _ _ B C T X)].
  Qed.
  Lemma wsteps_inv : forall n s tr s' e, RG s -> CI s -> DI s tr -> wsteps n s = (s', e) -> RG s' /\ CI s' /\ DI s' (tr ++ e).
  Proof.
    induction n as [|n IH]; intros s tr s' e A B C E; cbn in E.
    - injection E as <- <-. rewrite app_nil_r. auto.
    - destruct (wstep s) as [s1 a] eqn:S1. destruct (wsteps n s1) as [s2 b] eqn:S2. injection E as <- <-.
      destruct (wstep_inv _ _ _ _ A B C S1) as (A1 & B1 & C1). rewrite app_assoc. eapply IH; eauto.
  Qed.
  Lemma sumn_0 : forall n, sumn (fun _ => 0) n = 0.
  Proof. induction n; cbn; auto. Qed.
  Lemma init_inv : forall vars prog, RG (w_init vars prog) /\ CI (w_init vars prog) /\ DI (w_init vars prog) [].
  Proof.
    intros vars prog.
    assert (U : forall a, In a (map AUser prog) -> exists x, a = AUser x) by (intros a I; apply in_map_iff in I as (x & <- & _); eauto).
    split; [|split].
    - split; cbn; auto; try tauto.
      + intros w I. apply repeat_spec in I. subst. exact I.
      + intros a I. destruct (U a I) as (x & ->). exact Logic.I.
    - split; cbn; try discriminate; try lia. intro o. unfold tot. cbn [w_init w_slots w_n w_kids w_state w_todo sumn].
      assert (lsum (map (so o) (repeat WEmpty vars)) = 0) as -> by (clear; induction vars; cbn; auto).
      assert (lsum (map (ca o) (map AUser prog)) = 0) as -> by (clear; induction prog; cbn; auto). reflexivity.
    - split; cbn; try discriminate; try tauto.
      + intro o. split; [discriminate|tauto].
      + intros o b I. destruct (U _ I); discriminate.
      + intros w o I. destruct (U _ I); discriminate.
  Qed.
  Lemma run_inv : forall vars prog n s tr, wsteps n (w_init vars prog) = (s, tr) -> RG s /\ CI s /\ DI s tr.
  Proof. intros. destruct (init_inv vars prog) as (A & B & C). exact (wsteps_inv _ _ [] _ _ A B C H). Qed.

  Lemma not_owned_gone : forall s tr o, RG s -> CI s -> DI s tr -> w_todo s = [] -> o < w_n s -> ~ owned s o -> w_gone s o = true /\ w_disp s o = true.
  Proof.
    intros s tr o A B C T L N. destruct (w_gone s o) eqn:G.
    - split; auto. destruct (d_gone _ _ C o G) as [|I]; auto. rewrite T in I. destruct I.
    - exfalso. apply N. pose proof (c_alive _ B o L G) as P. rewrite (c_cnt _ B) in P. unfold tot in P. rewrite T in P. cbn in P.
      destruct (cl o (w_slots s)) eqn:Z1; [|left; apply cl_pos; lia]. right.
      destruct (sumn (fun p => cl o (w_kids s p)) (w_n s)) eqn:Z2.
      + right. destruct (sumn_pos (fun p => so o (w_state s p)) (w_n s)) as (p & Q1 & Q2); [lia|]. exists p. split; auto.
        unfold so in Q2. destruct (w_state s p); try lia. destruct (Nat.eqb_spec o0 o); [congruence|lia].
      + left. destruct (sumn_pos (fun p => cl o (w_kids s p)) (w_n s)) as (p & Q1 & Q2); [lia|]. exists p. split; auto. apply cl_pos. auto.
  Qed.
  Lemma owned_alive : forall s tr o, RG s -> CI s -> DI s tr -> owned s o -> ~ In (ELast o) tr.
  Proof.
    intros s tr o A B C W I. apply (d_last _ _ C) in I. pose proof (c_gone _ B o I) as Z. rewrite (c_cnt _ B) in Z. unfold tot in Z.
    destruct W as [W|[(p & L & W)|(p & L & W)]].
    - apply cl_in in W. lia.
    - apply cl_in in W. pose proof (sumn_ge (fun p => cl o (w_kids s p)) (w_n s) p L). cbn beta in *. lia.
    - pose proof (sumn_ge (fun p => so o (w_state s p)) (w_n s) p L) as Q. cbn beta in Q. rewrite W, so_s, Nat.eqb_refl in Q. lia.
  Qed.
  (** ** Every call comes to an end *)
  Definition wt (a : wact) : nat :=
    match a with
    | AUser _ => 16 | ADispW _ => 3 | ADisp _ _ => 1 | ARemSelf _ => 3 | AState _ => 2 | AClr _ => 1
    | AAdd _ _ => 5 | ARem _ _ => 1 | ADrop _ => 1
    end.
  Definition oc (g d : nat -> bool) (k : nat -> list wrap) (p : nat) : nat :=
    (if g p then 0 else 2) + (if d p then length (k p) else 6 + 4 * length (k p)).
  Definition tw (l : list wact) : nat := lsum (map wt l).
  Definition wm (s : ws) : nat := tw (w_todo s) + sumn (oc (w_gone s) (w_disp s) (w_kids s)) (w_n s).
  Lemma tw_app : forall a b, tw (a ++ b) = tw a + tw b.
  Proof. intros. unfold tw. now rewrite map_app, lsum_app. Qed.
  Lemma tw_cons : forall a b, tw (a :: b) = wt a + tw b.
  Proof. reflexivity. Qed.
  Lemma tw_nil : tw [] = 0.
  Proof. reflexivity. Qed.
  Lemma tw_drop : forall l, tw (map ADrop l) = length l.
  Proof. unfold tw. induction l; cbn; auto. Qed.
  Lemma tw_dispw : forall l, tw (map ADispW l) = 3 * length l.
  Proof. unfold tw. induction l as [|x l IH]; auto. cbn [map lsum wt length]. rewrite IH. lia. Qed.
  Lemma sumn_one : forall f h p n, p < n -> (forall q, q <> p -> h q = f q) -> sumn h n + f p = sumn f n + h p.
  Proof.
    induction n as [|n IH]; intros L H; [lia|]. cbn. destruct (Nat.eq_dec p n) as [->|N].
    - rewrite (sumn_ext h f n); [lia|]. intros q Q. apply H. lia.
    - specialize (IH ltac:(lia) H). rewrite (H n) by auto. lia.
  Qed.
  Lemma filter_len : forall X (f : X -> bool) l, length (filter f l) + length (filter (fun x => negb (f x)) l) = length l.
  Proof. induction l as [|x l IH]; cbn; auto. destruct (f x); cbn; lia. Qed.

  Lemma wm_step : forall s a r s' l e, RG s -> CI s -> w_todo s = a :: r -> wexec s a = (s', l, e) -> wm (wwith s' (l ++ r)) < wm s.
  Proof.
    intros [sl n c g d k sf st td] a r s' l e [H1 H2 H3 H4 H5 H6 H7] [C1 C2 C3] TD X.
    unfold wm. cbn [w_slots w_n w_cnt w_gone w_disp w_kids w_self w_state w_todo] in *. subst td.
    assert (OA : oka n a) by (apply H4; now left).
    destruct (H7 n (le_n _)) as (F1 & F2 & F3). pose proof (H5 n (le_n _)) as F4.
    casew X; unfold wwith; cbn [w_slots w_n w_cnt w_gone w_disp w_kids w_self w_state w_todo oka] in *.
    all: rewrite ?tw_app, ?tw_cons, ?tw_nil, ?tw_drop, ?tw_dispw; cbn [wt].
    all: try lia.
    all: try (cbn [sumn]; unfold oc at 1; rewrite F2, F3, F4; cbn [length]; lia).
    - pose proof (sumn_one (oc g d k) (oc g (upd d o true) k) o n OA) as Z. rewrite tw_app, tw_dispw, tw_cons, tw_nil. cbn [wt].
      assert (tw (if destr then [] else [ARemSelf o]) <= 3) by (destruct destr; cbn; lia).
      specialize (Z ltac:(intros q Q; unfold oc, upd; destruct (Nat.eqb_spec q o); [contradiction|auto])).
      assert (oc g (upd d o true) k o + 6 + 3 * length (k o) <= oc g d k o) by (unfold oc, upd; rewrite Nat.eqb_refl, B; lia). lia.
    - pose proof (sumn_one (oc g d k) (oc g d (upd k o [])) o n OA) as Z.
      specialize (Z ltac:(intros q Q; unfold oc, upd; destruct (Nat.eqb_spec q o); [contradiction|auto])).
      assert (oc g d (upd k o []) o + length (k o) <= oc g d k o) by (unfold oc, upd; rewrite Nat.eqb_refl; cbn [length]; destruct (d o); lia). lia.
    - pose proof (sumn_one (oc g d k) (oc g d (upd k p (k p ++ [w]))) p n (proj1 OA)) as Z.
      specialize (Z ltac:(intros q Q; unfold oc, upd; destruct (Nat.eqb_spec q p); [contradiction|auto])).
      assert (oc g d (upd k p (k p ++ [w])) p <= 4 + oc g d k p) by (unfold oc, upd; rewrite Nat.eqb_refl, app_length; cbn [length]; destruct (d p); lia). lia.
    - match goal with |- context [length ?x + tw r + sumn (oc g d (upd k p ?y)) n] =>
        pose proof (sumn_one (oc g d k) (oc g d (upd k p y)) p n (proj1 OA)) as Z;
        specialize (Z ltac:(intros q Q; unfold oc, upd; destruct (Nat.eqb_spec q p); [contradiction|auto]));
        assert (oc g d (upd k p y) p + length x <= oc g d k p) end; [|lia].
      match goal with |- _ + length (filter ?f (k p)) <= _ => pose proof (filter_len _ f (k p)) as W end. cbv beta in W.
      unfold oc, upd. rewrite Nat.eqb_refl, B. lia.
    - assert (G : g o = false) by (destruct (g o) eqn:G; auto; specialize (C2 o G); lia).
      pose proof (sumn_one (oc g d k) (oc (upd g o true) d k) o n OA) as Z.
      specialize (Z ltac:(intros q Q; unfold oc, upd; destruct (Nat.eqb_spec q o); [contradiction|auto])).
      assert (oc (upd g o true) d k o + 2 <= oc g d k o) by (unfold oc, upd; rewrite Nat.eqb_refl, G; lia). lia.
  Qed.
  Lemma wstep_m : forall s s' e, RG s -> CI s -> w_todo s <> [] -> wstep s = (s', e) -> wm s' < wm s.
  Proof.
    intros s s' e A B T E. unfold wstep in E. destruct (w_todo s) as [|a r] eqn:W; [contradiction|].
    destruct (wexec s a) as [[s1 l] e1] eqn:X. injection E as <- <-. exact (wm_step _ _ _ _ _ _ A B W X).
  Qed.
  Lemma wsteps_end : forall m s tr, RG s -> CI s -> DI s tr -> wm s < m -> exists n, w_todo (fst (wsteps n s)) = [].
  Proof.
    induction m as [|m IH]; intros s tr A B C L; [lia|]. destruct (w_todo s) as [|a r] eqn:T.
    - exists 0. auto.
    - destruct (wstep s) as [s1 e] eqn:S1. destruct (wstep_inv _ _ _ _ A B C S1) as (A1 & B1 & C1).
      pose proof (wstep_m _ _ _ A B ltac:(congruence) S1) as M. destruct (IH s1 _ A1 B1 C1 ltac:(lia)) as (n & N).
      exists (S n). cbn. rewrite S1. destruct (wsteps n s1). auto.
  Qed.
  Lemma run_end : forall vars prog, exists n, w_todo (fst (wsteps n (w_init vars prog))) = [].
  Proof. intros. destruct (init_inv vars prog) as (A & B & C). eapply wsteps_end; eauto. Qed.

  (** ** References are not taken out by their own disposal *)
  Record KI (s : ws) : Prop := MkKI {
    k_rem : forall p w, In (ARem p w) (w_todo s) -> w = WEmpty;
    k_prog : forall v w, ~ In (AUser (ORemove v w)) (w_todo s);
    k_clr : forall o, In (AClr o) (w_todo s) -> w_disp s o = true;
    k_self : forall o, o < w_n s -> w_self s o = true -> w_state s o = WEmpty
  }.
  Lemma KI_step : forall s a r s' l e, RG s -> KI s -> w_todo s = a :: r -> wexec s a = (s', l, e) -> KI (wwith s' (l ++ r)).
  Proof.
    intros [sl n c g d k sf st td] a r s' l e [H1 H2 H3 H4 H5 H6 H7] [K1 K2 K4 K3] TD X.
    cbn [w_slots w_n w_cnt w_gone w_disp w_kids w_self w_state w_todo] in *. subst td.
    assert (OA : oka n a) by (apply H4; now left).
    assert (R1 : forall p w, In (ARem p w) r -> w = WEmpty) by (intros p w I; apply (K1 p); now right).
    assert (R2 : forall v w, ~ In (AUser (ORemove v w)) r) by (intros v w I; apply (K2 v w); now right).
    assert (R4 : forall o, In (AClr o) r -> d o = true) by (intros o I; apply K4; now right).
    casew X; unfold wwith; cbn [w_slots w_n w_cnt w_gone w_disp w_kids w_self w_state w_todo oka] in *.
    all: split; cbn [w_slots w_n w_cnt w_gone w_disp w_kids w_self w_state w_todo]; auto.
    all: try (intros q x I; apply in_app_or in I as [I|I]; [cbn in I; intuition discriminate|first [eapply R1; eassumption|eapply R2; eassumption]]; fail).
    all: try (intros q x I; apply in_app_or in I as [I|I]; [apply in_map_iff in I as (? & I & _); discriminate|first [eapply R1; eassumption|eapply R2; eassumption]]; fail).
    all: try (intros q I; apply in_app_or in I as [I|I]; [cbn in I; intuition discriminate|eauto]; fail).
    all: try (intros q I; apply in_app_or in I as [I|I]; [apply in_map_iff in I as (? & I & _); discriminate|eauto]; fail).
    all: try (exfalso; eapply K2; now left).
    - intros q L. unfold upd. destruct (Nat.eqb_spec q n) as [->|N]; [intros _; apply H6; auto|apply K3; lia].
    - intros q L. unfold upd. destruct (Nat.eqb_spec q n) as [->|N]; [discriminate|apply K3; lia].
    - intros q x I. apply in_app_or in I as [I|I]; [|eauto]. apply in_app_or in I as [I|[I|I]]; [destruct destr; cbn in I; intuition discriminate|discriminate|].
      apply in_app_or in I as [I|[I|[]]]; [apply in_map_iff in I as (? & I & _); discriminate|discriminate].
    - intros q x I. apply in_app_or in I as [I|I]; [|eapply R2; eauto]. apply in_app_or in I as [I|[I|I]]; [destruct destr; cbn in I; intuition discriminate|discriminate|].
      apply in_app_or in I as [I|[I|[]]]; [apply in_map_iff in I as (? & I & _); discriminate|discriminate].
    - intros q I. unfold upd. destruct (q =? o) eqn:N; auto. apply R4. apply in_app_or in I as [I|I]; [|auto]. exfalso. apply in_app_or in I as [I|[I|I]]; [destruct destr; cbn in I; intuition discriminate|discriminate|].
      apply in_app_or in I as [I|[I|[]]]; [apply in_map_iff in I as (? & I & _); discriminate|]. injection I as <-. rewrite Nat.eqb_refl in N. discriminate.
    - intros q x I. apply in_app_or in I as [[I|[I|[]]]|I]; [|discriminate|eauto]. injection I as _ <-. unfold from_this. cbn.
      destruct (sf o) eqn:F; [|auto]. rewrite (K3 o OA F) in B. discriminate.
    - intros q L F. unfold upd. destruct (q =? o); auto.
  Qed.
  Lemma kept_step : forall s a r s' l e p o, RG s -> CI s -> KI s -> w_todo s = a :: r -> wexec s a = (s', l, e) ->
    In (WStrong o) (w_kids s p) -> w_disp s' p = false -> In (WStrong o) (w_kids s' p).
  Proof.
    intros [sl n c g d k sf st td] a r s' l e p o [H1 H2 H3 H4 H5 H6 H7] [C1 C2 C3] [K1 K2 K4 K3] TD X I D.
    cbn [w_slots w_n w_cnt w_gone w_disp w_kids w_self w_state w_todo] in *. subst td.
    assert (L : p < n) by (destruct (le_lt_dec n p) as [Q|Q]; auto; rewrite (H5 p Q) in I; destruct I).
    assert (AL : g o = false).
    { destruct (g o) eqn:G; auto. specialize (C2 o G). rewrite C1 in C2. unfold tot in C2. cbn [w_slots w_n w_kids w_state w_todo] in C2.
      pose proof (sumn_ge (fun p => cl o (k p)) n p L) as Z. cbv beta in Z. apply cl_in in I. lia. }
    destruct a as [[v|v w strong|v w|v w|v|v|v w|v w]|w|o1 destr|o1|o1|o1|p1 w|p1 w|[|o1|o1]]; cbn [wexec] in X;
    repeat match type of X with
      | match ?b with Some _ => _ | None => _ end = _ => let B := fresh "B" in destruct b eqn:B
      | (if ?b then _ else _) = _ => let B := fresh "B" in destruct b eqn:B
      | match ?b with 0 => _ | S _ => _ end = _ => let B := fresh "B" in destruct b eqn:B
    end; injection X as <- <- <-; cbn [w_kids w_disp] in *; auto.
    - unfold upd. destruct (Nat.eqb_spec p o1) as [->|N]; auto. rewrite (K4 o1) in D by now left. discriminate.
    - unfold upd. destruct (Nat.eqb_spec p p1) as [->|N]; auto.
    - unfold upd. destruct (Nat.eqb_spec p p1) as [->|N]; auto. apply filter_In. split; auto.
      rewrite (K1 p1 w) by now left. unfold same_target. cbn. rewrite AL. reflexivity.
  Qed.
  Lemma disp_mono : forall n s s' e y, wsteps n s = (s', e) -> w_disp s y = true -> w_disp s' y = true.
  Proof.
    induction n as [|n IH]; intros s s' e y E D; cbn in E; [injection E as <- _; auto|].
    destruct (wstep s) as [s1 a] eqn:S1. destruct (wsteps n s1) as [s2 b] eqn:S2. injection E as <- <-. eapply IH; eauto. clear S2 IH.
    unfold wstep in S1. destruct (w_todo s) as [|x r]; [now injection S1 as <- _|]. destruct (wexec s x) as [[t l] e] eqn:X. injection S1 as <- _. cbn [w_disp].
    destruct s as [sl m c g d k sf st td]. cbn [w_disp] in *.
    casew X; cbn [w_disp]; auto. unfold upd. destruct (_ =? _); auto.
  Qed.
  Lemma kept_steps : forall n s tr s' e p o, RG s -> CI s -> DI s tr -> KI s -> wsteps n s = (s', e) -> 
    In (WStrong o) (w_kids s p) -> w_disp s' p = false -> In (WStrong o) (w_kids s' p).
  Proof.
    induction n as [|n IH]; intros s tr s' e p o A B C K E I D; cbn in E; [injection E as <- _; auto|].
    destruct (wstep s) as [s1 a] eqn:S1. destruct (wsteps n s1) as [s2 b] eqn:S2. injection E as <- <-.
    destruct (wstep_inv _ _ _ _ A B C S1) as (A1 & B1 & C1).
    assert (D1 : w_disp s1 p = false) by (destruct (w_disp s1 p) eqn:Q; auto; rewrite (disp_mono _ _ _ _ _ S2 Q) in D; discriminate).
    unfold wstep in S1. destruct (w_todo s) as [|x r] eqn:T; [injection S1 as <- <-; eapply IH; eauto|].
    destruct (wexec s x) as [[t l] ee] eqn:X. injection S1 as <- <-.
    eapply IH; [exact A1|exact B1|exact C1|exact (KI_step _ _ _ _ _ _ A K T X)|exact S2| |exact D].
    exact (kept_step _ _ _ _ _ _ _ _ A B K T X I D1).
  Qed.
  Lemma KI_steps : forall n s tr s' e, RG s -> CI s -> DI s tr -> KI s -> wsteps n s = (s', e) -> KI s'.
  Proof.
    induction n as [|n IH]; intros s tr s' e A B C K E; cbn in E; [injection E as <- _; auto|].
    destruct (wstep s) as [s1 a] eqn:S1. destruct (wsteps n s1) as [s2 b] eqn:S2. injection E as <- <-.
    destruct (wstep_inv _ _ _ _ A B C S1) as (A1 & B1 & C1). unfold wstep in S1. destruct (w_todo s) as [|x r] eqn:T; [injection S1 as <- <-; eapply IH; eauto|].
    destruct (wexec s x) as [[t l] ee] eqn:X. injection S1 as <- <-. eapply IH; [exact A1|exact B1|exact C1|exact (KI_step _ _ _ _ _ _ A K T X)|exact S2].
  Qed.
  Lemma KI_init : forall vars prog, (forall v w, ~ In (ORemove v w) prog) -> KI (w_init vars prog).
  Proof.
    intros vars prog H. split; cbn; try discriminate; try lia.
    - intros p w I. apply in_map_iff in I as (? & I & _). discriminate.
    - intros v w I. apply in_map_iff in I as (x & [= ->] & I). eapply H; eauto.
    - intros o I. apply in_map_iff in I as (? & I & _). discriminate.
  Qed.
  Lemma wsteps_add : forall a b s, fst (wsteps (a + b) s) = fst (wsteps b (fst (wsteps a s))).
  Proof.
    induction a as [|a IH]; intros b s; cbn; auto. destruct (wstep s) as [s1 e]. specialize (IH b s1).
    destruct (wsteps (a + b) s1). destruct (wsteps a s1). auto.
  Qed.

  (** ** What has a reason to be disposed is disposed *)
  Definition pend (l : list wact) (o : nat) : Prop := (exists w, In (ADispW w) l /\ wobj w = Some o) \/ exists b, In (ADisp o b) l.
  Definition SD (s : ws) (o : nat) : Prop := w_disp s o = true \/ w_gone s o = true \/ pend (w_todo s) o.
  Lemma SD_step : forall s a r s' l e y, w_todo s = a :: r -> wexec s a = (s', l, e) -> SD s y -> SD (wwith s' (l ++ r)) y.
  Proof.
    intros [sl n c g d k sf st td] a r s' l e y TD X H. unfold SD in *. cbn [w_disp w_gone w_todo] in *. subst td.
    assert (M : (d y = true -> w_disp s' y = true) /\ (g y = true -> w_gone s' y = true)).
    { clear H. casew X; cbn [w_disp w_gone]; auto; split; auto; unfold upd; intros ->; now destruct (_ =? _). }
    destruct M as (M1 & M2). unfold wwith. cbn [w_disp w_gone w_todo].
    assert (P : pend r y -> pend (l ++ r) y).
    { intros [(w & I & W)|(b & I)]; [left; exists w|right; exists b]; intuition (apply in_or_app; auto). }
    destruct H as [H|[H|[(w & [I|I] & W)|(b & [I|I])]]]; auto.
    - subst a. cbn [wexec] in X. rewrite (wobj_target _ _ _ W) in X. cbn [w_gone] in X. destruct (g y) eqn:G; auto.
      injection X as <- <- <-. right. right. right. exists false. now left.
    - right. right. apply P. left. eauto.
    - subst a. cbn [wexec] in X. left. destruct (d y) eqn:D; auto. injection X as <- <- <-. cbn. unfold upd. now rewrite Nat.eqb_refl.
    - right. right. apply P. right. eauto.
  Qed.
  Record EI (s : ws) (tr : list wev) : Prop := MkEI {
    e_user : forall o, In (EUser o) tr -> SD s o;
    e_ref : forall o, In (ERefused o) tr -> SD s o
  }.
  Lemma EI_step : forall s tr a r s' l e, EI s tr -> w_todo s = a :: r -> wexec s a = (s', l, e) -> EI (wwith s' (l ++ r)) (tr ++ e).
  Proof.
    intros s tr a r s' l e [H1 H2] TD X. pose proof (fun y => SD_step _ _ _ _ _ _ y TD X) as SS.
    split; intros y I; apply in_app_or in I as [I|I]; auto; clear SS.
    all: destruct s as [sl n c g d k sf st td]; cbn [w_todo] in TD; subst td; unfold SD.
    all: casew X; unfold wwith; cbn [w_disp w_gone w_todo] in *; try (cbn in I; intuition discriminate).
    - destruct (target _ (nth v sl WEmpty)) eqn:T; [|destruct I]. destruct I as [[= <-]|[]]. right. right. left. eexists. split; [now left|]. eapply target_wobj; eauto.
    - destruct (target _ (nth w sl WEmpty)) eqn:T; [|destruct I]. destruct I as [I|[]]. discriminate.
    - destruct (target _ (nth v sl WEmpty)) eqn:T; [|destruct I]. destruct I as [I|[]]. discriminate.
    - destruct (target _ (nth w sl WEmpty)) eqn:T; [|destruct I]. destruct I as [[= <-]|[]]. right. right. left. eexists. split; [now left|]. eapply target_wobj; eauto.
    - destruct I as [[= <-]|[]]. right. right. left. eexists. split; [now left|]. eapply target_wobj; eauto.
  Qed.
  Definition AI (s : ws) (tr : list wev) : Prop :=
    forall p o, In (EAdd p o) tr -> (w_disp s p = false /\ exists w, In w (w_kids s p) /\ wobj w = Some o) \/ SD s o.
  Lemma AI_step : forall s tr a r s' l e, KI s -> AI s tr -> w_todo s = a :: r -> wexec s a = (s', l, e) -> AI (wwith s' (l ++ r)) (tr ++ e).
  Proof.
    intros s tr a r s' l e [K1 K2 K4 K3] H TD X p y I. pose proof (fun y => SD_step _ _ _ _ _ _ y TD X) as SS.
    apply in_app_or in I as [I|I].
    - destruct (H p y I) as [(D & w & I1 & W)|Z]; auto. clear H I.
      destruct s as [sl n c g d k sf st td]; cbn [w_todo w_disp w_kids] in *; subst td; unfold SD in *; cbn [w_todo w_disp w_kids w_gone] in *.
      destruct a as [[v1|v1 w1 strong|v1 w1|v1 w1|v1|v1|v1 w1|v1 w1]|w1|o1 destr|o1|o1|o1|p1 w1|p1 w1|[|o1|o1]]; cbn [wexec] in X;
      repeat match type of X with
        | match ?b with Some _ => _ | None => _ end = _ => let B := fresh "B" in destruct b eqn:B
        | (if ?b then _ else _) = _ => let B := fresh "B" in destruct b eqn:B
        | match ?b with 0 => _ | S _ => _ end = _ => let B := fresh "B" in destruct b eqn:B
      end; injection X as <- <- <-; unfold wwith; cbn [w_kids w_disp w_gone w_todo] in *; eauto 6.
      + destruct (Nat.eq_dec p o1) as [->|N].
        * right. right. right. left. exists w. split; auto. apply in_or_app. left. apply in_or_app. right. right. apply in_or_app. left. apply in_map. auto.
        * left. unfold upd. destruct (Nat.eqb_spec p o1); [contradiction|]. eauto.
      + left. unfold upd. destruct (Nat.eqb_spec p o1) as [->|N]; eauto. rewrite (K4 o1) in D by now left. discriminate.
      + left. unfold upd. destruct (Nat.eqb_spec p p1) as [->|N]; eauto.
      + rewrite (K1 p1 w1) in * by now left. destruct (g y) eqn:G; auto. left. split; auto. exists w. split; auto. unfold upd.
        destruct (Nat.eqb_spec p p1) as [->|N]; auto. apply filter_In. split; auto. unfold same_target. rewrite (wobj_target _ _ _ W). cbn. rewrite G. reflexivity.
    - clear SS H. rename p into pp. destruct s as [sl n c g d k sf st td]; cbn [w_todo] in TD; subst td.
      casew X; unfold wwith; cbn [w_disp w_gone w_todo w_kids] in *; try (cbn in I; intuition discriminate).
      + destruct (target _ (nth v sl WEmpty)) eqn:T; [|destruct I]. destruct I as [I|[]]. discriminate.
      + destruct (target _ (nth w sl WEmpty)) eqn:T; [|destruct I]. destruct I as [I|[]]. discriminate.
      + destruct I as [[= <- <-]|[]]. left. split; auto. exists w. split; [|eapply target_wobj; eauto]. unfold upd. rewrite Nat.eqb_refl. apply in_or_app. right. now left.
  Qed.
  Lemma EI_steps : forall n s tr s' e, EI s tr -> wsteps n s = (s', e) -> EI s' (tr ++ e).
  Proof.
    induction n as [|n IH]; intros s tr s' e C E; cbn in E.
    - injection E as <- <-. rewrite app_nil_r. auto.
    - destruct (wstep s) as [s1 a] eqn:S1. destruct (wsteps n s1) as [s2 b] eqn:S2. injection E as <- <-.
      rewrite app_assoc. eapply IH; eauto. unfold wstep in S1. destruct (w_todo s) as [|x r] eqn:T; [injection S1 as <- <-; now rewrite app_nil_r|].
      destruct (wexec s x) as [[t l] ee] eqn:X. injection S1 as <- <-. exact (EI_step _ _ _ _ _ _ _ C T X).
  Qed.
  Lemma AI_steps : forall n s tr s' e, RG s -> KI s -> AI s tr -> wsteps n s = (s', e) -> AI s' (tr ++ e).
  Proof.
    induction n as [|n IH]; intros s tr s' e A K C E; cbn in E.
    - injection E as <- <-. rewrite app_nil_r. auto.
    - destruct (wstep s) as [s1 a] eqn:S1. destruct (wsteps n s1) as [s2 b] eqn:S2. injection E as <- <-.
      rewrite app_assoc. unfold wstep in S1. destruct (w_todo s) as [|x r] eqn:T; [injection S1 as <- <-; rewrite app_nil_r; eapply IH; eauto|].
      destruct (wexec s x) as [[t l] ee] eqn:X. injection S1 as <- <-.
      eapply IH; [exact (RG_step _ _ _ _ _ _ A T X)|exact (KI_step _ _ _ _ _ _ A K T X)|exact (AI_step _ _ _ _ _ _ _ K C T X)|exact S2].
  Qed.
  Lemma SD_end : forall s tr o, DI s tr -> w_todo s = [] -> SD s o -> In (EDisp o) tr.
  Proof.
    intros s tr o C T H. apply disposals_in. rewrite (d_once _ _ C).
    assert (w_disp s o = true) as ->; [|lia]. unfold SD, pend in H. rewrite T in H.
    destruct H as [H|[H|[(w & [] & _)|(b & [])]]]; auto. destruct (d_gone _ _ C o H) as [Z|Z]; auto. rewrite T in Z. destruct Z.
  Qed.
  Lemma run_EI : forall vars prog n s tr, wsteps n (w_init vars prog) = (s, tr) -> EI s tr.
  Proof. intros. apply (EI_steps n _ [] _ _) in H; auto. split; intros o []. Qed.
  Lemma run_AI : forall vars prog n s tr, (forall v w, ~ In (ORemove v w) prog) -> wsteps n (w_init vars prog) = (s, tr) -> AI s tr.
  Proof. intros. destruct (init_inv vars prog) as (A & _). apply (AI_steps n _ [] _ _ A (KI_init _ _ H)) in H0; auto. intros p o []. Qed.

  (** ** Who keeps whom alive: the two modes of add_ref *)
  Record MI (s : ws) (tr : list wev) : Prop := MkMI {
    m_st : forall o, In (AState o) (w_todo s) -> w_disp s o = true;
    m_weak : forall o r, In (ERef o r false) tr -> w_disp s o = true \/ w_state s o = WStrong r;
    m_lt : forall o r b, In (ERef o r b) tr -> o < w_n s
  }.
  Lemma MI_step : forall s tr a r s' l e, MI s tr -> w_todo s = a :: r -> wexec s a = (s', l, e) -> MI (wwith s' (l ++ r)) (tr ++ e).
  Proof.
    intros [sl n c g d k sf st td] tr a r s' l e [H1 H2 H3] TD X.
    cbn [w_slots w_n w_cnt w_gone w_disp w_kids w_self w_state w_todo] in *. subst td.
    assert (R1 : forall o, In (AState o) r -> d o = true) by (intros o I; apply H1; now right).
    casew X; unfold wwith; cbn [w_slots w_n w_cnt w_gone w_disp w_kids w_self w_state w_todo oka] in *.
    all: split; cbn [w_slots w_n w_cnt w_gone w_disp w_kids w_self w_state w_todo]; auto.
    all: rewrite ?app_nil_r; auto.
    all: try (intros q I; apply in_app_or in I as [I|I]; [cbn in I; intuition discriminate|eauto]; fail).
    all: try (intros q I; apply in_app_or in I as [I|I]; [apply in_map_iff in I as (? & I & _); discriminate|eauto]; fail).
    all: try (intros q x I; apply in_app_or in I as [I|I]; [eauto|try match type of I with context [match ?t with Some _ => _ | None => _ end] => destruct t end; cbn in I; intuition discriminate]; fail).
    all: try (intros q x b I; apply in_app_or in I as [I|I]; [eauto|try match type of I with context [match ?t with Some _ => _ | None => _ end] => destruct t end; cbn in I; intuition discriminate]; fail).
    - intros q x b I. specialize (H3 q x b I). lia.
    - intros q x I. apply in_app_or in I as [I|[I|[]]].
      + destruct (H2 q x I) as [Z|Z]; auto. right. unfold upd. specialize (H3 _ _ _ I). destruct (Nat.eqb_spec q n); [lia|auto].
      + injection I as <- <- ->. right. unfold upd. now rewrite Nat.eqb_refl.
    - intros q x b I. apply in_app_or in I as [I|[I|[]]]; [specialize (H3 q x b I); lia|]. injection I as <- _ _. lia.
    - intros q I. unfold upd. destruct (q =? o) eqn:N; auto. apply R1. apply in_app_or in I as [I|I]; [|auto]. exfalso.
      apply in_app_or in I as [I|[I|I]]; [destruct destr; cbn in I; intuition discriminate|injection I as ->; rewrite Nat.eqb_refl in N; discriminate|].
      apply in_app_or in I as [I|[I|[]]]; [apply in_map_iff in I as (? & I & _); discriminate|discriminate].
    - intros q x I. apply in_app_or in I as [I|[I|[]]]; [|discriminate]. destruct (H2 q x I) as [Z|Z]; auto. left. unfold upd. rewrite Z. now destruct (_ =? _).
    - intros q x I. destruct (H2 q x I) as [Z|Z]; auto. unfold upd. destruct (Nat.eqb_spec q o) as [->|N]; auto. left. apply H1. now left.
  Qed.
  Lemma MI_steps : forall n s tr s' e, MI s tr -> wsteps n s = (s', e) -> MI s' (tr ++ e).
  Proof.
    induction n as [|n IH]; intros s tr s' e C E; cbn in E.
    - injection E as <- <-. rewrite app_nil_r. auto.
    - destruct (wstep s) as [s1 a] eqn:S1. destruct (wsteps n s1) as [s2 b] eqn:S2. injection E as <- <-.
      rewrite app_assoc. eapply IH; eauto. unfold wstep in S1. destruct (w_todo s) as [|x r] eqn:T; [injection S1 as <- <-; now rewrite app_nil_r|].
      destruct (wexec s x) as [[t l] ee] eqn:X. injection S1 as <- <-. exact (MI_step _ _ _ _ _ _ _ C T X).
  Qed.
  Lemma run_MI : forall vars prog n s tr, wsteps n (w_init vars prog) = (s, tr) -> MI s tr.
  Proof.
    intros vars prog n s tr H. apply (MI_steps n _ [] _ _) in H; auto. split; cbn; try tauto.
    intros o I. apply in_map_iff in I as (? & I & _). discriminate.
  Qed.

  Record TI (s : ws) (tr : list wev) : Prop := MkTI {
    t_tail : forall p w, ~ In (AAdd p w) (tl (w_todo s));
    t_strong : forall o r, In (ERef o r true) tr -> w_disp s r = true \/ In (WStrong o) (w_kids s r) \/
      exists l, w_todo s = AAdd r (WStrong o) :: l /\ w_disp s o = false /\ o <> r /\ In (WStrong o) (w_slots s)
  }.
  Lemma tl_app : forall X (a b : list X) x, In x (tl (a ++ b)) -> In x (tl a) \/ In x b.
  Proof. intros X [|y a] b x I; cbn in *; [right; destruct b; [auto|now right]|apply in_app_or; auto]. Qed.
  Lemma in_put_new : forall l v w, v < length l -> In w (put l v w).
  Proof. induction l as [|x l IH]; intros v w L; cbn in *; [lia|]. destruct v; [now left|right; apply IH; lia]. Qed.
  Lemma TI_step : forall s tr a r s' l e, RG s -> CI s -> KI s -> TI s tr -> w_todo s = a :: r -> wexec s a = (s', l, e) -> TI (wwith s' (l ++ r)) (tr ++ e).
  Proof.
    intros s tr a r s' l e A B K [H1 H2] TD X. rewrite TD in H1. cbn [tl] in H1. split.
    - intros p1 w1 I. unfold wwith in I. cbn [w_todo] in I. apply tl_app in I as [I|I]; [|eapply H1; eauto].
      clear H1 H2 A B K. destruct s as [sl n c g d k sf st td]. cbn [w_todo] in TD. subst td. casew X; cbn [tl] in I; try (cbn in I; intuition discriminate).
      + assert (J : forall x, In x (tl ((if destr then [] else [ARemSelf o]) ++ AState o :: map ADispW (k o) ++ [AClr o])) -> In x (AState o :: map ADispW (k o) ++ [AClr o])).
        { intros x Z. destruct destr; cbn [app tl] in Z; auto. now right. }
        apply J in I as [I|I]; [discriminate|]. apply in_app_or in I as [I|[I|[]]]; [|discriminate]. apply in_map_iff in I as (? & I & _). discriminate.
      + assert (J : In (AAdd p1 w1) (map ADrop (k o))) by (destruct (map ADrop (k o)); [destruct I|now right]). apply in_map_iff in J as (? & J & _). discriminate.
      + match type of I with In _ (tl ?m) => assert (J : In (AAdd p1 w1) m) by (destruct m; [destruct I|now right]) end. apply in_map_iff in J as (? & J & _). discriminate.
    - intros o q I. apply in_app_or in I as [I|I].
      + destruct (H2 o q I) as [Z|[Z|(l1 & Z & D & N & SL)]].
        * left. unfold wwith. cbn [w_disp]. clear - X Z. destruct s as [sl n c g d k sf st td]. cbn [w_disp] in Z.
          casew X; cbn [w_disp]; auto. unfold upd. rewrite Z. now destruct (_ =? _).
        * unfold wwith. cbn [w_disp w_kids]. destruct (w_disp s' q) eqn:Q; auto. right. left. eapply kept_step; eauto.
        * rewrite TD in Z. injection Z as -> ->.
          assert (G : w_gone s o = false).
          { destruct (w_gone s o) eqn:G; auto. pose proof (c_gone _ B o G) as C. rewrite (c_cnt _ B) in C. unfold tot in C. apply cl_in in SL. lia. }
          destruct s as [sl n c g d k sf st td]. cbn [wexec target w_gone w_disp w_kids] in *. rewrite G, D in X.
          destruct (Nat.eqb_spec o q); [contradiction|]. cbn [orb] in X. destruct (d q) eqn:Q; injection X as <- <- <-; unfold wwith; cbn [w_disp w_kids]; auto.
          right. left. unfold upd. rewrite Nat.eqb_refl. apply in_or_app. right. now left.
      + clear H1 H2 B K. destruct s as [sl n c g d k sf st td]. cbn [w_todo] in TD. subst td. rename o into oo.
        destruct A as [G1 G2 G3 G4 G5 G6 G7]. cbn [w_slots w_n w_disp w_kids w_state w_todo w_gone w_cnt] in *.
        casew X; try (cbn in I; intuition discriminate).
        * destruct I as [I|[]]. injection I as <- <- ->. right. right. eexists. split; [reflexivity|]. unfold wwith. cbn [w_disp w_slots].
          split; [apply G7; auto|]. apply Nat.ltb_lt in B0. split; [|apply in_put_new; auto]. eapply ok_target in B; [|apply ok_nth; eauto]. lia.
        * match type of I with context [match ?t with Some _ => _ | None => _ end] => destruct t end; cbn in I; intuition discriminate.
        * match type of I with context [match ?t with Some _ => _ | None => _ end] => destruct t end; cbn in I; intuition discriminate.
  Qed.
  Lemma TI_steps : forall n s tr t s' e, RG s -> CI s -> DI s t -> KI s -> TI s tr -> wsteps n s = (s', e) -> TI s' (tr ++ e).
  Proof.
    induction n as [|n IH]; intros s tr t s' e A B D K C E; cbn in E.
    - injection E as <- <-. rewrite app_nil_r. auto.
    - destruct (wstep s) as [s1 a] eqn:S1. destruct (wsteps n s1) as [s2 b] eqn:S2. injection E as <- <-.
      destruct (wstep_inv _ _ _ _ A B D S1) as (A1 & B1 & D1).
      rewrite app_assoc. unfold wstep in S1. destruct (w_todo s) as [|x r] eqn:T; [injection S1 as <- <-; rewrite app_nil_r; eapply IH; eauto|].
      destruct (wexec s x) as [[u l] ee] eqn:X. injection S1 as <- <-.
      eapply IH; [exact A1|exact B1|exact D1|exact (KI_step _ _ _ _ _ _ A K T X)|exact (TI_step _ _ _ _ _ _ _ A B K C T X)|exact S2].
  Qed.
  Lemma run_TI : forall vars prog n s tr, (forall v w, ~ In (ORemove v w) prog) -> wsteps n (w_init vars prog) = (s, tr) -> TI s tr.
  Proof.
    intros vars prog n s tr H E. destruct (init_inv vars prog) as (A & B & C). apply (TI_steps n _ [] _ _ _ A B C (KI_init _ _ H)) in E; auto.
    split; cbn; try tauto. intros p w I. assert (J : In (AAdd p w) (map AUser prog)) by (destruct prog; [destruct I|now right]).
    apply in_map_iff in J as (? & J & _). discriminate.
  Qed.
End P.
