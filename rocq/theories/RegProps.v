(** C84: a stream split by group_by or window and merged again. *)
From Verif Require Import Base Machine MachineProofs ObserverModel MultiSpec MultiModel MultiProofs OpsSpec OpsModel ChainSpec ChainModel ChainProofs.
From Verif Require Import TreeSpec TreeModel FairModel FanSpec FanModel RegSpec RegModel RegProofs RegPlans.
Open Scope nat_scope.

Lemma over_list : forall A C (t : list (ev A)), tpart t -> map (@over_as A (unit + C)) t = [] \/ (exists y, map (@over_as A (unit + C)) t = [Err y]) \/ (map (@over_as A (unit + C)) t = [Done] /\ t <> []).
Proof. intros A C t [->|[->|(y & ->)]]; cbn; [auto|right; right; easy|right; left; eauto]. Qed.

(** group_by(key) | flat_map(chain): every value goes through the chain of its group, and what
    the chain passes on comes at once; the end of the source ends the groups in the order of
    their keys and then the result. *)
Theorem C84_group_by : forall A C (c : chain A C) (key : A -> nat) (D : machine C) d0 vs t, lawful D -> tpart t ->
  exists g, group_by_flat c (merge_op C) D d0 key (map Next vs ++ t) = Some g /\
    g_down g = mrun D d0 (regrouped c key [] vs ++ regrouped_end c key vs t).
Proof.
  intros A C c key D d0 vs t L TP. destruct (group_run c key vs t TP) as (x & lf & h & E & T & P & F).
  destruct (merge_runs c D L d0 false x lf h (map over_as t) T) as (g & U & Q).
  { destruct (over_list A C t TP) as [->|[(y & ->)|(-> & N)]]; eauto. }
  exists g. split; [|now rewrite Q, P]. unfold group_by_flat. now rewrite E.
Qed.
Print Assumptions C84_group_by.

(** window(n) | flat_map(chain), and with switch_on_next instead of merge: the same, as only the
    last window is ever open. *)
Theorem C84_window : forall A C (c : chain A C) size (D : machine C) d0 vs t, lawful D -> tpart t ->
  let n := Nat.max 1 size in
  (exists g, window_flat c (merge_op C) D d0 size (map Next vs ++ t) = Some g /\
     g_down g = mrun D d0 (rewindowed c n [] vs ++ rewindowed_end c n vs t)) /\
  (exists g, window_flat c (switch_op C) D d0 size (map Next vs ++ t) = Some g /\
     g_down g = mrun D d0 (rewindowed c n [] vs ++ rewindowed_end c n vs t)).
Proof.
  intros A C c size D d0 vs t L TP n. destruct (window_run c n ltac:(lia) vs t TP) as (x & lf & h & E & T & P & F).
  assert (H : map (@over_as A (unit + C)) t = [] \/ (exists y, map (@over_as A (unit + C)) t = [Err y]) \/ (map (@over_as A (unit + C)) t = [Done] /\ forall k, In k (fl_parts c x) -> term (lf k) <> None)).
  { destruct (over_list A C t TP) as [->|[(y & ->)|(-> & N)]]; eauto. }
  split.
  - destruct (merge_runs c D L d0 true x lf h (map over_as t) T H) as (g & U & Q). exists g. split; [|now rewrite Q, P]. unfold window_flat. fold n. now rewrite E.
  - destruct (switch_runs c D L d0 x lf h (map over_as t) T H) as (g & U & Q). exists g. split; [|now rewrite Q, P]. unfold window_flat. fold n. now rewrite E.
Qed.
Print Assumptions C84_window.

(** ** Nothing put on the parts: the source itself *)
Lemma vals_t : forall A (l : list A) t, tpart t -> vals (map Next l ++ t) = l.
Proof. intros A l t TP. induction l as [|v l IH]; cbn; [destruct TP as [->|[->|(y & ->)]]; reflexivity|]. now rewrite IH. Qed.
Lemma heard_t : forall A (l : list A) t, tpart t -> heard (map Next l ++ t) = map Next l ++ t.
Proof. intros A l t TP. unfold heard, term_list. rewrite term_app, vals_t by auto. f_equal. destruct TP as [->|[->|(y & ->)]]; reflexivity. Qed.
Lemma heard_n : forall A (l : list A), heard (map Next l) = map Next l.
Proof. intros A l. rewrite <- (app_nil_r (map Next l)). apply heard_t. now left. Qed.
Lemma skip_len : forall X (a b : list X), skipn (length a) (a ++ b) = b.
Proof. intros. now rewrite skipn_app, skipn_all, Nat.sub_diag. Qed.
Lemma plain_more : forall A (l : list A) e, more (ChNil A) (map Next l) e = [e].
Proof.
  intros A l e. unfold more, shown. cbn [chain_spec]. rewrite heard_n. replace (heard (map Next l ++ [e])) with (map Next l ++ [e]); [apply skip_len|].
  symmetry. destruct e as [v|x|]; [|apply heard_t; right; right; eauto|apply heard_t; right; now left]. replace (map Next l ++ [Next v]) with (map Next (l ++ [v])) by apply map_app. apply heard_n.
Qed.
Lemma plain_regrouped : forall A (key : A -> nat) vs past, regrouped (ChNil A) key past vs = map Next vs.
Proof. induction vs as [|v vs IH]; intro past; auto. cbn [regrouped map]. rewrite plain_more, IH. now destruct (has_key key (key v) past). Qed.
Lemma plain_rewindowed : forall A n (vs past : list A), rewindowed (ChNil A) n past vs = map Next vs.
Proof. induction vs as [|v vs IH]; intro past; auto. cbn [rewindowed map]. rewrite !plain_more, IH. destruct (length past mod n =? 0), (S (length past) mod n =? 0); reflexivity. Qed.
Lemma err_repeats : forall A (D : machine A) d l (y : exn), lawful D -> (forall e, In e l -> e = Err y) -> mrun D d (l ++ [Err y]) = mrun D d [Err y].
Proof.
  intros A D d l y L H. destruct l as [|e l]; auto. rewrite (H e (or_introl eq_refl)). cbn [app]. rewrite mrun_cons, mrun_dead; auto. apply (law_term _ L). reflexivity.
Qed.
Theorem C84_same : forall A (key : A -> nat) size (D : machine A) d0 vs t, lawful D -> tpart t ->
  (exists g, group_by_flat (ChNil A) (merge_op A) D d0 key (map Next vs ++ t) = Some g /\ g_down g = mrun D d0 (map Next vs ++ t)) /\
  (exists g, window_flat (ChNil A) (merge_op A) D d0 size (map Next vs ++ t) = Some g /\ g_down g = mrun D d0 (map Next vs ++ t)) /\
  (exists g, window_flat (ChNil A) (switch_op A) D d0 size (map Next vs ++ t) = Some g /\ g_down g = mrun D d0 (map Next vs ++ t)).
Proof.
  intros A key size D d0 vs t L TP.
  assert (G : mrun D d0 (regrouped (ChNil A) key [] vs ++ regrouped_end (ChNil A) key vs t) = mrun D d0 (map Next vs ++ t)).
  { rewrite plain_regrouped, !mrun_app. generalize (mrun D d0 (map Next vs)). intro d. destruct TP as [->|[->|(y & ->)]]; auto; cbn [regrouped_end].
    - replace (flat_map _ (keys_of key vs)) with (@nil (ev A)); auto. symmetry. induction (keys_of key vs) as [|k l IH]; auto. cbn [flat_map]. now rewrite plain_more, IH.
    - apply err_repeats; auto. intros e I. apply in_flat_map in I. destruct I as (k & _ & I). rewrite plain_more in I. destruct I as [<-|[]]. reflexivity. }
  assert (W : mrun D d0 (rewindowed (ChNil A) (Nat.max 1 size) [] vs ++ rewindowed_end (ChNil A) (Nat.max 1 size) vs t) = mrun D d0 (map Next vs ++ t)).
  { rewrite plain_rewindowed, !mrun_app. generalize (mrun D d0 (map Next vs)). intro d. destruct TP as [->|[->|(y & ->)]]; auto; cbn [rewindowed_end]; rewrite plain_more.
    - now destruct (_ =? 0).
    - apply err_repeats; auto. intros e I. destruct (_ =? 0); [easy|]. destruct I as [<-|[]]. reflexivity. }
  split; [rewrite <- G; now apply C84_group_by|rewrite <- W; now apply C84_window].
Qed.
Print Assumptions C84_same.

(** ** take(n) on every group: the first n values of every key *)
Fixpoint first_of_keys {A} (key : A -> nat) (n : nat) (past vs : list A) : list A :=
  match vs with
  | [] => []
  | v :: r => (if length (filter (fun w => key w =? key v) past) <? n then [v] else []) ++ first_of_keys key n (past ++ [v]) r
  end.
Definition taken A n : chain A A := ChCons A A A (LTake A n) (ChNil A).
Lemma taken_shown : forall A n (l : list A) t, tpart t ->
  shown (taken A n) (map Next l ++ t) = if length l <? Nat.max 1 n then map Next l ++ t else map Next (firstn n l) ++ [Done].
Proof.
  intros A n l t TP. unfold shown, taken. cbn [chain_spec op_spec]. rewrite vals_t by auto. unfold take_spec.
  replace (term_list (map Next l ++ t)) with t by (unfold term_list; rewrite term_app; destruct TP as [->|[->|(y & ->)]]; reflexivity).
  destruct (length l <? _); apply heard_t; auto. right. now left.
Qed.
Lemma taken_next : forall A n (l : list A) v, open_end (more (taken A n) (map Next l) (Next v)) = if length l <? n then [Next v] else [].
Proof.
  intros A n l v. unfold more. replace (map Next l ++ [Next v]) with (map Next (l ++ [v]) ++ []) by (rewrite app_nil_r; apply map_app).
  rewrite taken_shown by now left. replace (shown (taken A n) (map Next l)) with (shown (taken A n) (map Next l ++ [])) by now rewrite app_nil_r.
  rewrite taken_shown, !app_nil_r, app_length by now left. cbn [length].
  destruct (Nat.ltb_spec (length l) n) as [X|X]; destruct (Nat.ltb_spec (length l) (Nat.max 1 n)) as [Y|Y]; try lia.
  - destruct (Nat.ltb_spec (length l + 1) (Nat.max 1 n)) as [Z|Z].
    + rewrite map_app, skip_len. reflexivity.
    + rewrite firstn_all2 by (rewrite app_length; cbn; lia). rewrite map_app, <- app_assoc, skip_len. reflexivity.
  - assert (n = 0) by lia. subst n. assert (l = []) by (destruct l; auto; cbn in Y; lia). subst l. reflexivity.
  - destruct (Nat.ltb_spec (length l + 1) (Nat.max 1 n)) as [Z|Z]; [lia|]. rewrite firstn_app. replace (n - length l) with 0 by lia. cbn [firstn]. rewrite app_nil_r, skipn_all. reflexivity.
Qed.
Lemma taken_end : forall A n (l : list A) e, is_term e = true -> open_end (more (taken A n) (map Next l) e) = match e with Err x => if length l <? Nat.max 1 n then [Err x] else [] | _ => [] end.
Proof.
  intros A n l e TE. unfold more. replace (shown (taken A n) (map Next l)) with (shown (taken A n) (map Next l ++ [])) by now rewrite app_nil_r.
  rewrite !taken_shown by (destruct e; [discriminate|right; right; eauto|right; now left] || now left). rewrite app_nil_r. destruct (length l <? Nat.max 1 n).
  - rewrite skip_len. now destruct e.
  - rewrite skipn_all. now destruct e.
Qed.
Theorem C84_firsts : forall A (key : A -> nat) n (D : machine A) d0 vs t, lawful D -> tpart t ->
  exists g, group_by_flat (taken A n) (merge_op A) D d0 key (map Next vs ++ t) = Some g /\
    g_down g = mrun D d0 (map Next (first_of_keys key n [] vs) ++ t).
Proof.
  intros A key n D d0 vs t L TP. destruct (C84_group_by A A (taken A n) key D d0 vs t L TP) as (g & E & Q). exists g. split; auto. rewrite Q, !mrun_app.
  assert (R : forall vs past, regrouped (taken A n) key past vs = map Next (first_of_keys key n past vs)).
  { clear. induction vs as [|v vs IH]; intro past; auto. cbn [regrouped first_of_keys]. rewrite taken_next, IH, map_app. unfold of_key.
    replace (open_end (shown (taken A n) [])) with (@nil (ev A)) by (unfold shown, taken; cbn [chain_spec op_spec vals term_list term]; unfold take_spec; cbn [length]; now rewrite (proj2 (Nat.ltb_lt 0 (Nat.max 1 n))) by lia).
    destruct (has_key key (key v) past), (length (filter (fun w : A => key w =? key v) past) <? n); reflexivity. }
  rewrite R. generalize (mrun D d0 (map Next (first_of_keys key n [] vs))). intro d. destruct TP as [->|[->|(y & ->)]]; auto; cbn [regrouped_end].
  - replace (flat_map _ (keys_of key vs)) with (@nil (ev A)); auto. symmetry. induction (keys_of key vs) as [|k l IH]; auto. cbn [flat_map]. now rewrite taken_end, IH.
  - apply err_repeats; auto. intros e I. apply in_flat_map in I. destruct I as (k & _ & I). rewrite taken_end in I by reflexivity. destruct (_ <? _); [|easy]. destruct I as [<-|[]]. reflexivity.
Qed.
Print Assumptions C84_firsts.

(** ** reduce on every group: one total per key, in the order of the keys *)
Definition totalled A B (f : B -> A -> B) b : chain A B := ChCons A B B (LReduce A B (fun x a => Ok (f x a)) b) (ChNil B).
Lemma fold_ok : forall A B (f : B -> A -> B) l b, foldr_res (fun x a => Ok (f x a)) b l = Ok (fold_left f l b).
Proof. induction l as [|v l IH]; intro b; cbn; auto. Qed.
Lemma totalled_shown : forall A B (f : B -> A -> B) b (l : list A) t, tpart t ->
  shown (totalled A B f b) (map Next l ++ t) = match t with [Done] => [Next (fold_left f l b); Done] | [Err x] => [Err x] | _ => [] end.
Proof.
  intros A B f b l t TP. unfold shown, totalled. cbn [chain_spec op_spec]. rewrite vals_t by auto. unfold reduce_spec. rewrite fold_ok. unfold term_list. rewrite !term_app.
  destruct TP as [->|[->|(y & ->)]]; reflexivity.
Qed.
Theorem C84_totals : forall A B (key : A -> nat) (f : B -> A -> B) b (D : machine B) d0 vs t, lawful D -> tpart t ->
  exists g, group_by_flat (totalled A B f b) (merge_op B) D d0 key (map Next vs ++ t) = Some g /\
    g_down g = mrun D d0 (match t with
      | [] => []
      | Err x :: _ => [Err x]
      | _ => map (fun k => Next (fold_left f (filter (fun v => key v =? k) vs) b)) (keys_of key vs) ++ [Done]
      end).
Proof.
  intros A B key f b D d0 vs t L TP. destruct (C84_group_by A B (totalled A B f b) key D d0 vs t L TP) as (g & E & Q). exists g. split; auto. rewrite Q.
  assert (S0 : forall l, shown (totalled A B f b) (map Next l) = []) by (intro l; rewrite <- (app_nil_r (map Next l)); rewrite totalled_shown by (now left); reflexivity).
  assert (R : forall vs past, regrouped (totalled A B f b) key past vs = []).
  { clear - S0. induction vs as [|v vs IH]; intro past; auto. cbn [regrouped]. rewrite IH, app_nil_r. unfold more. change (shown (totalled A B f b) []) with (shown (totalled A B f b) (map Next [])).
    replace (map Next (of_key key (key v) past) ++ [Next v]) with (map (@Next A) (of_key key (key v) past ++ [v])) by apply map_app. rewrite !S0. now destruct (has_key _ _ _). }
  rewrite R. cbn [app]. destruct TP as [->|[->|(y & ->)]]; auto; cbn [regrouped_end].
  - f_equal. f_equal. induction (keys_of key vs) as [|k l IH]; auto. cbn [flat_map map]. rewrite IH. unfold more. rewrite S0, totalled_shown by (right; now left). reflexivity.
  - apply err_repeats; auto. intros e I. apply in_flat_map in I. destruct I as (k & _ & I). unfold more in I. rewrite S0, totalled_shown in I by (right; right; eauto). destruct I as [<-|[]]. reflexivity.
Qed.
Print Assumptions C84_totals.

Example C84_case :
  option_map (fun g : gs (merge_op nat) (record_of nat) => o_log (g_down g))
    (group_by_flat (taken nat 1) (merge_op nat) (record_of nat) o_init (fun v => v mod 3) (map Next [5; 3; 8; 4; 6] ++ [Done])) = Some [Next 5; Next 3; Next 4; Done] /\
  option_map (fun g : gs (merge_op nat) (record_of nat) => o_log (g_down g))
    (group_by_flat (totalled nat nat Nat.add 100) (merge_op nat) (record_of nat) o_init (fun v => v mod 3) (map Next [5; 3; 8; 4; 6] ++ [Done])) = Some [Next 109; Next 104; Next 113; Done] /\
  option_map (fun g : gs (switch_op nat) (record_of nat) => o_log (g_down g))
    (window_flat (totalled nat nat Nat.add 100) (switch_op nat) (record_of nat) o_init 2 (map Next [5; 3; 8; 4; 6] ++ [Done])) = Some [Next 108; Next 112; Next 106; Done] /\
  option_map (fun g : gs (merge_op nat) (record_of nat) => o_log (g_down g))
    (window_flat (taken nat 1) (merge_op nat) (record_of nat) o_init 2 (map Next [5; 3; 8; 4; 6] ++ [Err 7])) = Some [Next 5; Next 8; Next 6; Err 7].
Proof. repeat split; vm_compute; reflexivity. Qed.
