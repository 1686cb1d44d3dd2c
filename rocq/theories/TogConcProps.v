(** window_toggle on several threads (C61). *)
From Coq Require Import Permutation Lia.
From Verif Require Import Base Concur TogConcSpec TogConcModel.

(** ** C61 *)
Definition kcrit (x : kitem) : bool := match x with KLoop _ _ | KIn _ _ _ => true | _ => false end.
Definition kin (i : nat) (x : kitem) : bool := match x with KIn _ j _ => j =? i | _ => false end.
Definition kclosing (x : kitem) : bool := match x with KClose _ | KOut _ | KErase _ => true | _ => false end.
Definition begins (i : nat) (tr : list wlab) : nat := length (filter (fun l => match l with WBegin j => j =? i | WEnd _ => false end) tr).
Definition ended (i : nat) (tr : list wlab) : nat := length (filter (fun l => match l with WEnd j => j =? i | WBegin _ => false end) tr).
Lemma begins_app : forall i a b, begins i (a ++ b) = begins i a + begins i b.
Proof. intros. unfold begins. now rewrite filter_app, app_length. Qed.
Lemma ended_app : forall i a b, ended i (a ++ b) = ended i a + ended i b.
Proof. intros. unfold ended. now rewrite filter_app, app_length. Qed.
Definition KInv (s : kst) (l : list kitem) (tr : list wlab) : Prop :=
  count kcrit l = (if k_lock s then 1 else 0) /\ (forall x, In x l -> kclosing x = false) /\ forall i, begins i tr = ended i tr + count (kin i) l.

(** As long as no closing observable fires, the calls of a window's observer do not
    overlap, however many threads emit source values. *)
Theorem C61_source_partial : forall ws progs tr c, gexec (kstep (fun _ _ => [])) (KS false ws, map (map KSrc) progs) tr c -> no_overlap tr.
Proof.
  intros ws progs tr c E.
  assert (H : KInv (fst c) (concat (snd c)) tr).
  { apply (gexec_inv (kstep (fun _ _ => [])) KInv) with (c0 := (KS false ws, map (map KSrc) progs)); auto.
    - intros s l l' tr0 P (A & B & C). split; [now rewrite <- (count_perm _ _ _ P)|]. split; [intros x I; apply B; eapply Permutation_in; [symmetry; exact P | auto]|].
      intro i. now rewrite <- (count_perm _ _ _ P).
    - intros s it l tr0 s' its ls (A & B & C) S.
      assert (B' : kclosing it = false) by (apply B; now left).
      assert (Bl : forall x, In x l -> kclosing x = false) by (intros; apply B; now right).
      unfold KInv in *. destruct it as [v|v [|i r]|v i r|i|i|i]; try discriminate B'; cbn [kstep map app] in S.
      + destruct (k_lock s) eqn:L; [discriminate|]. injection S as <- <- <-. rewrite !count_cons in *. cbn [kcrit k_lock] in *.
        split; [cbn [app]; rewrite count_cons; cbn; lia|]. split; [intros x [<-|I]; auto|]. intro i. rewrite app_nil_r. cbn [app]. rewrite count_cons. specialize (C i). rewrite count_cons in C. cbn [kin] in *. lia.
      + injection S as <- <- <-. rewrite count_cons in A. cbn [kcrit k_lock] in *. split; [cbn [app]; destruct (k_lock s); lia|]. split; [exact Bl|].
        intro i. rewrite app_nil_r. specialize (C i). rewrite count_cons in C. cbn [kin app] in *. lia.
      + injection S as <- <- <-. cbn [app]. rewrite count_cons in *. cbn [kcrit] in *. split; auto. split; [intros x [<-|I]; auto|].
        intro k. rewrite begins_app, ended_app. specialize (C k). rewrite !count_cons in *. unfold begins at 2, ended at 2. cbn [kin filter length]. destruct (i =? k); cbn [length]; cbn [kin] in C; lia.
      + injection S as <- <- <-. cbn [app]. rewrite count_cons in *. cbn [kcrit] in *. split; auto. split; [intros x [<-|I]; auto|].
        intro k. rewrite begins_app, ended_app. specialize (C k). rewrite !count_cons in *. unfold begins at 2, ended at 2. cbn [kin filter length] in *. destruct (i =? k); cbn [length]; lia.
    - cbn [fst snd k_lock]. assert (SR : forall x, In x (concat (map (map KSrc) progs)) -> exists v, x = KSrc v).
      { intros x I. apply in_concat in I as (t & I1 & I2). apply in_map_iff in I1 as (p & <- & _). apply in_map_iff in I2 as (v & <- & _). eauto. }
      split; [apply count_zero_of; intros x I; destruct (SR x I) as [v ->]; reflexivity|].
      split; [intros x I; destruct (SR x I) as [v ->]; reflexivity|]. intro i. cbn. symmetry. apply count_zero_of. intros x I. destruct (SR x I) as [v ->]. reflexivity. }
  destruct H as (A & _ & C). intro i. unfold running. fold (begins i tr) (ended i tr). rewrite C.
  assert (count (kin i) (concat (snd c)) <= count kcrit (concat (snd c))).
  { clear. induction (concat (snd c)) as [|x l IH]; [auto|]. rewrite !count_cons. destruct x as [v|v m|v j m|j|j|j]; cbn [kin kcrit]; try lia. destruct (j =? i); lia. }
  destruct (k_lock (fst c)); lia.
Qed.
Print Assumptions C61_source_partial.
Example C61_case : exists c, gexec (kstep (fun _ _ => [])) (KS false [0; 1], map (map KSrc) [[1; 2]; [3]]) [WBegin 0; WEnd 0; WBegin 1; WEnd 1; WBegin 0; WEnd 0; WBegin 1; WEnd 1; WBegin 0; WEnd 0; WBegin 1; WEnd 1] c /\ gfinished c.
Proof.
  eexists. split; [apply (grun_sound (kstep (fun _ _ => [])) (repeat 0 6 ++ repeat 1 6 ++ repeat 0 6)); vm_compute; reflexivity|].
  intros t I. cbn in I. destruct I as [<-|[<-|[]]]; reflexivity.
Qed.

(** A closing observable on another thread completes the window while a source value is
    being delivered to it: the two calls overlap. *)
Theorem C61_overlap_refuted : exists tr c, gexec (kstep (fun _ _ => [])) (KS false [0], [[KSrc 1]; [KClose 0]]) tr c /\ gfinished c /\
  exists tr1 tr2, tr = tr1 ++ tr2 /\ running 0 tr1 = 2.
Proof.
  eexists _, _. split; [apply (grun_sound (kstep (fun _ _ => [])) [0; 0; 1; 1; 0; 0; 1]); vm_compute; reflexivity|].
  split; [intros t I; cbn in I; destruct I as [<-|[<-|[]]]; reflexivity|].
  exists [WBegin 0; WBegin 0], [WEnd 0; WEnd 0]. split; reflexivity.
Qed.
Print Assumptions C61_overlap_refuted.

(** The observer of a window makes the closing observable fire from its callback: the
    thread waits for ever for the mutex that it holds itself. *)
Theorem C61_reentrant_refuted : exists react tr c, gexec (kstep react) (KS false [0], [[KSrc 1]]) tr c /\ ~ gfinished c /\ forall ls c', ~ gstep (kstep react) c ls c'.
Proof.
  exists (fun i v => [0]).
  set (ex := gtol (kstep (fun i v => [0])) (repeat 0 9) (KS false [0], [[KSrc 1]])). exists (fst ex), (snd ex).
  split; [apply gtol_sound|].
  assert (X : exists rest, snd ex = (KS true [0], [KErase 0 :: rest])) by (eexists; vm_compute; reflexivity).
  destruct X as [rest E]. rewrite E. clearbody ex. clear E ex.
  split; [intro F; specialize (F _ (or_introl eq_refl)); discriminate|].
  intros ls c' S. inversion S as [s ts1 it r ts2 s' its l ST E1]. destruct ts1 as [|t ts1].
  - match goal with H : [] ++ _ = _ |- _ => cbn in H; injection H as -> -> -> end. discriminate.
  - destruct ts1; discriminate.
Qed.
Print Assumptions C61_reentrant_refuted.
