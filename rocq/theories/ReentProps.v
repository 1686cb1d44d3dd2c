(** C78: single-source operators whose source is pushed into from inside the
    downstream's own on_next callback. *)
From Verif Require Import Base Machine OpsModel OpsSpec ObserverSpec ReentSpec ReentModel ReentProofs.

(** [sound o spec]: in every execution - any nesting of pushes inside callbacks, any
    moment of disposal - nothing undefined happens, what has been delivered is a prefix of
    what the operator owes for the pushed events taken in the order in which the pushes
    began, and nothing is missing when no callback is running (unless disposed). *)

Theorem C78_map : forall A B (f : A -> res B), sound (map_r f) (map_spec f).
Proof. exact map_sound. Qed.
Theorem C78_filter : forall A (p : A -> res bool), sound (filter_r p) (filter_spec p).
Proof. exact filter_sound. Qed.
Theorem C78_skip : forall A n, sound (@skip_r A n) (skip_spec n).
Proof. exact skip_sound. Qed.
Theorem C78_take_while : forall A (p : A -> res bool), sound (take_while_r p) (take_while_spec p).
Proof. exact take_while_sound. Qed.
Theorem C78_distinct : forall A (eqb : A -> A -> bool), (forall x y, eqb x y = true <-> x = y) ->
  sound (distinct_r eqb) (distinct_spec eqb).
Proof. exact distinct_sound. Qed.
Theorem C78_distinct_until_changed : forall A (cmp : A -> A -> res bool), sound (duc_r cmp) (duc_spec cmp).
Proof. exact duc_sound. Qed.
Theorem C78_scan : forall A B (f : B -> A -> res B) seed, sound (scan_r f seed) (scan_spec f seed).
Proof. exact scan_sound. Qed.
Theorem C78_scan_no_seed : forall A (f : A -> A -> res A), sound (scan1_r f) (scan1_spec f).
Proof. exact scan1_sound. Qed.
Theorem C78_reduce : forall A B (f : B -> A -> res B) seed, sound (reduce_r f seed) (reduce_spec f seed).
Proof. exact reduce_sound. Qed.
Theorem C78_reduce_no_seed : forall A (f : A -> A -> res A), sound (reduce1_r f) (reduce1_spec f).
Proof. exact reduce1_sound. Qed.
Theorem C78_last : forall A nee, sound (@last_r A nee) (last_spec nee).
Proof. exact last_sound. Qed.
Theorem C78_take_last : forall A n, sound (@take_last_r A n) (take_last_spec n).
Proof. exact take_last_sound. Qed.

(** take: exactly the first n pushed values, in order, however deeply nested; and the
    completion is right too if no error is pushed. *)
Theorem C78_take : forall A n (tr : list (act A)) st, rrun (take_r n) tr = Some st ->
  r_ub st = false /\
  (exists rest, firstn n (vals (pushed tr)) = values (r_log st) ++ rest) /\
  (~ In AStop tr -> values (r_log st) = firstn n (vals (pushed tr))) /\
  ((forall x, ~ In (Err x) (pushed tr)) -> delivers (take_spec n) tr (r_log st) (r_wait st = [])).
Proof.
  intros A n tr st R. destruct (take_values n tr st R) as (U & P & V). repeat split; auto.
  - destruct (take_exact n tr st R H) as (P' & _). exact P'.
  - destruct (take_exact n tr st R H) as (_ & E). exact E.
Qed.

(** With any operator, sound or not: what is delivered is values and then at most one
    terminal event, and nothing is delivered after the disposal. *)
Theorem C78_grammar : forall A B (o : rop A B) tr st, rrun o tr = Some st -> grammatical (r_log st).
Proof.
  intros A B o tr st R. apply (rruns_shape o tr _ _ R). split; cbn.
  - exists (ro_start o), []. rewrite app_nil_r. auto.
  - eauto.
Qed.
Theorem C78_stop : forall A B (o : rop A B) tr tr' st st',
  rrun o (tr ++ [AStop]) = Some st -> rrun o (tr ++ AStop :: tr') = Some st' -> r_log st' = r_log st.
Proof.
  intros A B o tr tr' st st' R R'. unfold rrun in *. rewrite rruns_app in R, R'.
  destruct (rruns o (r_init o) tr) as [s|]; [|discriminate]. cbn in R, R'. injection R as <-.
  exact (rruns_dead o _ _ _ R' eq_refl).
Qed.

(** ---- the claim is false of these ---- *)
Lemma not_sound : forall A B (o : rop A B) (spec : stream_spec A B) tr log,
  (exists st, rrun o tr = Some st /\ r_wait st = [] /\ r_log st = log) -> ~ In AStop tr ->
  log <> spec (vals (pushed tr)) (term_list (pushed tr)) -> ~ sound o spec.
Proof. intros A B o spec tr log (st & R & W & L) N D H. destruct (H tr st R) as (_ & _ & X). apply D. rewrite <- L. auto. Qed.

(** first: a value pushed from inside the callback of the first one is delivered too; a
    completion pushed there turns into "not enough emissions" after the value. *)
Theorem C78_first_refuted : forall nee,
  ~ sound (@first_r nat nee) (first_spec nee) /\
  (exists st, rrun (first_r nee) [APush (Next 1); APush (Next 2); AReturn; AReturn] = Some st /\
              r_log st = [Next 1; Next 2; Done]) /\
  (exists st, rrun (first_r nee) [APush (Next 1); APush Done; AReturn] = Some st /\ r_log st = [Next 1; Err nee]).
Proof.
  intro nee. split; [|split].
  - apply (not_sound _ _ _ _ [APush (Next 1); APush (Next 2); AReturn; AReturn] [Next 1; Next 2; Done]).
    + eexists. split; [vm_compute; reflexivity|split; reflexivity].
    + intros [E|[E|[E|[E|[]]]]]; discriminate.
    + discriminate.
  - eexists. split; [vm_compute; reflexivity|reflexivity].
  - eexists. split; [vm_compute; reflexivity|reflexivity].
Qed.

(** element_at: the same. *)
Theorem C78_element_at_refuted : forall oor,
  ~ sound (@element_at_r nat oor 1) (element_at_spec oor 1) /\
  exists st, rrun (element_at_r oor 1) [APush (Next 5); APush (Next 6); APush (Next 7); AReturn; AReturn] = Some st /\
             r_log st = [Next 6; Next 7; Done].
Proof.
  intro oor. split.
  - apply (not_sound _ _ _ _ [APush (Next 5); APush (Next 6); APush (Next 7); AReturn; AReturn] [Next 6; Next 7; Done]).
    + eexists. split; [vm_compute; reflexivity|split; reflexivity].
    + intros [E|[E|[E|[E|[E|[]]]]]]; discriminate.
    + discriminate.
  - eexists. split; [vm_compute; reflexivity|reflexivity].
Qed.

(** take: an error pushed from inside the callback of the last value replaces the completion. *)
Theorem C78_take_error_refuted : forall x,
  ~ sound (@take_r nat 1) (take_spec 1) /\
  exists st, rrun (take_r 1) [APush (Next 1); APush (Err x); AReturn] = Some st /\ r_log st = [Next 1; Err x].
Proof.
  intro x. split.
  - apply (not_sound _ _ _ _ [APush (Next 1); APush (Err x); AReturn] [Next 1; Err x]).
    + eexists. split; [vm_compute; reflexivity|split; reflexivity].
    + intros [E|[E|[E|[]]]]; discriminate.
    + discriminate.
  - eexists. split; [vm_compute; reflexivity|reflexivity].
Qed.

(** throttle: values pushed from inside the callback are not throttled: any number of
    them is delivered at one and the same time. *)
Theorem C78_throttle_refuted : forall dur, 1 <= dur ->
  ~ sound (@throttle_r nat dur) (throttle_spec dur) /\
  forall n, exists st, rrun (throttle_r dur) (repeat (APush (Next (0, 3))) n) = Some st /\ r_log st = repeat (Next 3) n.
Proof.
  intros dur D. split.
  - apply (not_sound _ _ _ _ [APush (Next (0, 3)); APush (Next (0, 3)); AReturn; AReturn] [Next 3; Next 3]).
    + eexists. split; [vm_compute; reflexivity|split; reflexivity].
    + intros [E|[E|[E|[E|[]]]]]; discriminate.
    + cbn. destruct dur; [lia|discriminate].
  - intro n. assert (G : forall w l, exists st, rruns (@throttle_r nat dur) (RSt (o := @throttle_r nat dur) None false false w l false) (repeat (APush (Next (0, 3))) n) = Some st /\ r_log st = l ++ repeat (Next 3) n).
    { induction n as [|n IH]; intros w l.
      - eexists. split; [vm_compute; reflexivity|]. cbn. now rewrite app_nil_r.
      - cbn [repeat rruns]. destruct (IH (Put (Some 0) Ret :: w) (l ++ [Next 3])) as (st & E & L).
        exists st. split; [exact E|]. rewrite L. now rewrite <- app_assoc. }
    exact (G [] []).
Qed.

(** buffer(2): if the subscriber takes the vector by value, a value pushed from inside its
    callback is delivered in a buffer of its own; if by const reference, it is lost, and
    the buffers that follow hold four values instead of two. *)
Theorem C78_buffer_refuted :
  (exists st, rrun (@buffer_r nat true 2) [APush (Next 1); APush (Next 2); APush (Next 3); AReturn; AReturn; APush (Next 4); APush (Next 5)] = Some st /\
              r_log st = [Next [1; 2]; Next [3]; Next [4; 5]]) /\
  (exists st, rrun (@buffer_r nat false 2) [APush (Next 1); APush (Next 2); APush (Next 3); AReturn; APush (Next 4); APush (Next 5); APush (Next 6); APush (Next 7)] = Some st /\
              r_log st = [Next [1; 2]; Next [4; 5; 6; 7]]).
Proof. split; eexists; (split; [vm_compute; reflexivity|reflexivity]). Qed.

(** window(2): a value pushed while the last value of a window is being delivered makes the
    counter miss its limit: the next value uses an empty std::optional. *)
Theorem C78_window_refuted : exists st,
  rrun (@window_r nat 2)
    [APush (Next 1); AReturn; AReturn;   (* the window is opened and gets 1 *)
     APush (Next 2); APush (Next 3);     (* 3 is pushed while 2 is being delivered *)
     AReturn; AReturn; AReturn;          (* 3 is delivered, the window completes, 2 is over *)
     APush (Next 4)] = Some st /\ r_ub st = true.
Proof. eexists. split; [vm_compute; reflexivity|reflexivity]. Qed.

(** group_by: a value with the same key pushed while its group is being announced opens a
    second group for the key; the first one never gets a value or a completion. *)
Theorem C78_group_by_refuted : exists st,
  rrun (@group_by_r nat nat Nat.eqb)
    [APush (Next (5, 1)); APush (Next (5, 2)); AReturn; AReturn; AReturn; AReturn; APush Done; AReturn] = Some st /\
  r_wait st = [] /\
  r_log st = [Next (GOpen 5 0); Next (GOpen 5 1); Next (GVal 1 2); Next (GVal 1 1); Next (GClose 1); Done].
Proof. eexists. split; [vm_compute; reflexivity|]. split; reflexivity. Qed.

(** scan and distinct_until_changed hand out a reference to their own member: while the
    callback that was given 1 is still running, the member is already something else. *)
Theorem C78_scan_reference_refuted : exists st,
  rrun (scan_r (fun a v => Ok (a + v)) 0) [APush (Next 1); APush (Next 2); AReturn] = Some st /\
  length (r_wait st) = 1 /\ r_log st = [Next 0; Next 1; Next 3] /\ r_s st = 3.
Proof. eexists. split; [vm_compute; reflexivity|]. repeat split; reflexivity. Qed.
Theorem C78_distinct_until_changed_reference_refuted : exists st,
  rrun (duc_r (fun a b => Ok (a =? b))) [APush (Next 1); APush (Next 2); AReturn] = Some st /\
  length (r_wait st) = 1 /\ r_log st = [Next 1; Next 2] /\ r_s st = Some 2.
Proof. eexists. split; [vm_compute; reflexivity|]. repeat split; reflexivity. Qed.

(** Concrete: pushes three deep through scan, the completion from inside. *)
Example C78_example :
  rrun (scan_r (fun a v => Ok (a + v)) 0)
    [APush (Next 1); APush (Next 2); APush (Next 3); AReturn; APush Done; AReturn; AReturn] =
  Some (RSt (o := scan_r (fun a v => Ok (a + v)) 0) 6 true true [] [Next 0; Next 1; Next 3; Next 6; Done] false).
Proof. vm_compute. reflexivity. Qed.
Example C78_take_example :
  exists st, rrun (take_r 2) [APush (Next 1); APush (Next 2); APush (Next 3); AReturn; AReturn] = Some st /\
             r_log st = [Next 1; Next 2; Done].
Proof. eexists. split; [vm_compute; reflexivity|reflexivity]. Qed.

Print Assumptions C78_map.
Print Assumptions C78_filter.
Print Assumptions C78_skip.
Print Assumptions C78_take_while.
Print Assumptions C78_distinct.
Print Assumptions C78_distinct_until_changed.
Print Assumptions C78_scan.
Print Assumptions C78_scan_no_seed.
Print Assumptions C78_reduce.
Print Assumptions C78_reduce_no_seed.
Print Assumptions C78_last.
Print Assumptions C78_take_last.
Print Assumptions C78_take.
Print Assumptions C78_grammar.
Print Assumptions C78_stop.
Print Assumptions C78_first_refuted.
Print Assumptions C78_element_at_refuted.
Print Assumptions C78_take_error_refuted.
Print Assumptions C78_throttle_refuted.
Print Assumptions C78_buffer_refuted.
Print Assumptions C78_window_refuted.
Print Assumptions C78_group_by_refuted.
Print Assumptions C78_scan_reference_refuted.
Print Assumptions C78_distinct_until_changed_reference_refuted.
