(** Final statements for operators that subscribe again: retry (C40), retry_when and
    on_error_resume_next (C41), source::concat, repeat, start_with (C42). *)
From Verif Require Import Base Machine MachineProofs Concur ObserverModel ChainModel ChainProofs.
From Verif Require Import MultiSpec MultiLin MultiRace MultiProps ResubSpec ResubModel ResubProofs.

(** In every execution: subscriptions happen one by one, each when everything before it has
    been released; the downstream observer has received a beginning of [out], unless somebody
    disposed it, which cuts it short; when nothing can happen any more, all of it. *)
Definition resubscribes {E V} (o : rop E V) (x0 : rx o) (out : list (attempt E) -> list (ev V)) : Prop :=
  forall (D : machine V), lawful D -> forall d0 script kills tr s ts, mdisp D d0 = false ->
  gexec (rstep o D script) (r_init o D script x0 d0, r_threads script kills) tr (s, ts) ->
  one_by_one tr /\
  (exists seen rest, out script = seen ++ rest /\ (r_d s = mrun D d0 seen \/ kills <> 0 /\ r_d s = mkill D (mrun D d0 seen))) /\
  ((forall ls c', ~ gstep (rstep o D script) (s, ts) ls c') ->
   r_d s = mrun D d0 (out script) \/
   kills <> 0 /\ exists seen rest, out script = seen ++ rest /\ r_d s = mkill D (mrun D d0 seen)).
Lemma resub_gen : forall E V (o : rop E V) x0 out, rop_ok o -> (forall script, gen o x0 script = out script) -> resubscribes o x0 out.
Proof. intros E V o x0 out OK EQ D LD d0 script kills tr s ts DD X. rewrite <- EQ. exact (resub_main o D script x0 d0 kills OK LD tr s ts DD X). Qed.

(** ** C40 *)
Lemma retry_evs : forall V (c : option nat) (l : list (ev V)),
  evs (retry_op V) c l =
  let (vs, e) := split_end l in
  match e with
  | None => (vs, c, QOpen)
  | Some (Err x) => match c with Some 0 => (vs ++ [Err x], c, QEnd) | _ => (vs, c, QAgain) end
  | Some e => (vs ++ [e], c, QEnd)
  end.
Proof.
  intros V c l. induction l as [|[v|x|] l IH]; cbn [evs split_end retry_op ron]; auto.
  - rewrite IH. destruct (split_end l) as [vs [[w|y|]|]]; cbn; auto. destruct c as [[|n]|]; reflexivity.
  - destruct c as [[|n]|]; reflexivity.
Qed.
Lemma split_end_next : forall V (l : list (ev V)) vs v, split_end l = (vs, Some (Next v)) -> False.
Proof.
  intros V l. induction l as [|[w|x|] l IH]; cbn; intros vs v E; try discriminate.
  destruct (split_end l) as [us e]. cbn in E. inversion E; subst. eapply IH. reflexivity.
Qed.
Lemma retry_gen : forall V script n, gen (retry_op V) (retry_start n) script = retry_out n script.
Proof.
  intros V script. induction script as [|[now later|now z] r IH]; intro n.
  - destruct n; reflexivity.
  - assert (G : gen (retry_op V) (retry_start n) (Calls now later :: r) =
        match evs (retry_op V) n (now ++ later) with (out, y, QAgain) => out ++ gen (retry_op V) y r | (out, _, _) => out end)
      by (destruct n; reflexivity).
    rewrite G, retry_evs. cbn [retry_out]. destruct (split_end (now ++ later)) as [vs [[w|y|]|]] eqn:SE; auto.
    + destruct n as [[|n]|]; auto.
      * f_equal. exact (IH (Some n)).
      * f_equal. exact (IH None).
    + now rewrite app_nil_r.
  - assert (G : gen (retry_op V) (retry_start n) (Throws now z :: r) =
        match evs (retry_op V) n now with (out, _, QEnd) => out | (out, _, _) => out ++ [Err z] end)
      by (destruct n; reflexivity).
    rewrite G, retry_evs. cbn [retry_out]. destruct (split_end now) as [vs [[w|y|]|]] eqn:SE; auto.
    destruct n as [[|n]|]; reflexivity.
Qed.
Theorem C40_retry : forall V n, resubscribes (retry_op V) (retry_start n) (retry_out n).
Proof.
  intros. apply resub_gen; [|intro; apply retry_gen]. split.
  - discriminate.
  - intros x e x' e' H. destruct e as [v|y|]; cbn in H; try discriminate.
    + destruct x as [[|m]|]; inversion H; reflexivity.
    + inversion H; reflexivity.
Qed.
Print Assumptions C40_retry.

(** Nothing is left out: with n retries the output is every value of the first attempts and the
    (n+1)-th error. *)
Theorem C40_all_fail : forall V (fs : list (list V * exn)) (vs : list V) (x : exn) rest,
  retry_out (Some (length fs)) (map (fun f => Calls (map Next (fst f) ++ [Err (snd f)]) []) fs ++ Calls [] (map Next vs ++ [Err x]) :: rest)
  = map Next (concat (map fst fs)) ++ map Next vs ++ [Err x].
Proof.
  assert (SE : forall V (l : list V) e r, is_term e = true -> split_end (map Next l ++ e :: r) = (map Next l, Some e)).
  { intros V l e r T. induction l as [|v l IH]; cbn.
    - destruct e; auto; discriminate.
    - now rewrite IH. }
  intros V fs vs x rest. induction fs as [|f fs IH]; cbn [map app concat length retry_out].
  - rewrite SE by reflexivity. reflexivity.
  - rewrite app_nil_r, SE by reflexivity. rewrite map_app, <- app_assoc. now rewrite IH.
Qed.
Print Assumptions C40_all_fail.

Definition rt_script : list (attempt (ev nat)) :=
  [Calls [Next 1; Err 7] []; Calls [Next 2] [Next 3; Err 8]; Calls [] [Next 4; Err 9]; Calls [Next 5; Done] []].
Definition rt_init := r_init (retry_op nat) plain rt_script (retry_start (Some 2)) o_init.
(** Attempt 1 fails on its own thread while the first thread is still inside subscribe(). *)
Definition rt_ex := gtol (rstep (retry_op nat) plain rt_script) (reps [(0, 10); (2, 20); (0, 20); (3, 9); (4, 3)]) (rt_init, r_threads rt_script 0).
Example C40_case : gexec (rstep (retry_op nat) plain rt_script) (rt_init, r_threads rt_script 0) (fst rt_ex) (snd rt_ex) /\
  o_log (r_d (fst (snd rt_ex))) = [Next 1; Next 2; Next 3; Next 4; Err 9] /\
  retry_out (Some 2) rt_script = [Next 1; Next 2; Next 3; Next 4; Err 9] /\ snd (snd rt_ex) = [[]; [IAsync 0]; []; []; [IAsync 3]] /\
  fst rt_ex = [SSub 0 []; SRet 0; SSub 1 []; SRet 1; SSub 2 []; SRet 2].
Proof. split; [apply gtol_sound|]. vm_compute. repeat split. Qed.

(** ** C41 *)
Lemma when_evs_failed : forall V sel (l : list (ev V + ev unit)),
  evs (when_op V sel) true l =
  match notified l with VNone => ([], true, QOpen) | VAgain => ([], true, QAgain) | VEnd e => ([e], true, QEnd) end.
Proof. intros V sel l. induction l as [|[[v|x|]|[u|x|]] l IH]; cbn [evs notified when_op ron]; auto. Qed.
Lemma when_evs : forall V sel (l : list (ev V + ev unit)), exists b,
  evs (when_op V sel) false l =
  let (vs, q) := split_when sel l in
  match q with VNone => (vs, b, QOpen) | VAgain => (vs, b, QAgain) | VEnd e => (vs ++ [e], b, QEnd) end.
Proof.
  intros V sel l. induction l as [|[[v|x|]|[u|x|]] l IH]; cbn [evs split_when when_op ron]; eauto.
  - destruct IH as [b ->]. exists b. destruct (split_when sel l) as [vs [e| |]]; reflexivity.
  - destruct (sel x); [eauto|]. exists true. rewrite when_evs_failed. destruct (notified l); reflexivity.
Qed.
Lemma when_gen : forall V sel script b, gen (when_op V sel) b script = when_out sel script.
Proof.
  intros V sel script. induction script as [|[now later|now z] r IH]; intro b; [reflexivity| |].
  - change (gen (when_op V sel) b (Calls now later :: r)) with
      (match evs (when_op V sel) false (now ++ later) with (out, y, QAgain) => out ++ gen (when_op V sel) y r | (out, _, _) => out end).
    destruct (when_evs V sel (now ++ later)) as [c ->]. cbn [when_out]. destruct (split_when sel (now ++ later)) as [vs [e| |]]; auto.
    + now rewrite IH.
    + now rewrite app_nil_r.
  - change (gen (when_op V sel) b (Throws now z :: r)) with
      (match evs (when_op V sel) false now with (out, _, QEnd) => out | (out, _, _) => out ++ [Err z] end).
    destruct (when_evs V sel now) as [c ->]. cbn [when_out]. destruct (split_when sel now) as [vs [e| |]]; auto.
Qed.
Theorem C41_retry_when : forall V sel, resubscribes (when_op V sel) false (when_out sel).
Proof.
  intros. apply resub_gen; [|intro; apply when_gen]. split.
  - discriminate.
  - intros x e x' e' H. destruct e as [[v|y|]|[u|y|]]; destruct x; cbn in H; try discriminate; try (inversion H; reflexivity).
    destruct (sel y); inversion H; reflexivity.
Qed.
Print Assumptions C41_retry_when.
Definition rw_script : list (attempt (ev nat + ev unit)) :=
  [Calls [inl (Next 1)] [inl (Err 7); inr (Next tt)]; Calls [inl (Err 8); inr (Next tt); inr Done] []; Calls [inl (Next 2); inl (Err 9)] [inr Done]].
Definition rw_init := r_init (when_op nat (fun _ => None)) plain rw_script false o_init.
Definition rw_ex := gtol (rstep (when_op nat (fun _ => None)) plain rw_script) (reps [(0, 4); (1, 60); (3, 9)]) (rw_init, r_threads rw_script 0).
Example C41_case : gexec (rstep (when_op nat (fun _ => None)) plain rw_script) (rw_init, r_threads rw_script 0) (fst rw_ex) (snd rw_ex) /\
  o_log (r_d (fst (snd rw_ex))) = [Next 1; Next 2; Done] /\ when_out (fun _ => None) rw_script = [Next 1; Next 2; Done] /\
  fst rw_ex = [SSub 0 []; SRet 0; SSub 1 []; SRet 1; SSub 2 []; SRet 2].
Proof. split; [apply gtol_sound|]. vm_compute. repeat split. Qed.

Lemma resume_dead : forall V sel (D : machine V) l b d, mdisp D d = true -> resume_run sel D l (b, d) = (b, d).
Proof. intros V sel D l b d H. induction l as [|e l IH]; cbn; auto. unfold resume_run in *. cbn. now rewrite H. Qed.
Theorem C41_resume_next : forall V sel (D : machine V), lawful D -> forall d0 l,
  snd (resume_run sel D l (false, d0)) = mrun D d0 (resume_out sel l).
Proof.
  intros V sel D L.
  assert (B : forall l d, snd (resume_run sel D l (true, d)) = mrun D d (fallback l)).
  { induction l as [|e l IH]; intro d; auto. destruct (mdisp D d) eqn:DD.
    - rewrite resume_dead, mrun_dead; auto.
    - unfold resume_run in *. destruct e as [[v|x|]|e]; cbn [fold_left resume_step fallback]; rewrite DD; auto.
      rewrite IH. now rewrite mrun_cons. }
  intros d0 l. revert d0. induction l as [|e l IH]; intro d; auto. destruct (mdisp D d) eqn:DD.
  - rewrite resume_dead, mrun_dead; auto.
  - assert (T : forall b e, is_term e = true -> resume_run sel D l (b, mstep D d e) = (b, mstep D d e)).
    { intros b t Ht. apply resume_dead. now apply (law_term D L). }
    destruct e as [[v|x|]|e].
    + change (resume_run sel D (inl (Next v) :: l) (false, d)) with (resume_run sel D l (resume_step sel D (false, d) (inl (Next v)))).
      cbn [resume_step resume_out]. rewrite DD, IH, mrun_cons. reflexivity.
    + change (resume_run sel D (inl (Err x) :: l) (false, d)) with (resume_run sel D l (resume_step sel D (false, d) (inl (Err x)))).
      cbn [resume_step resume_out]. rewrite DD. destruct (sel x); [rewrite T by reflexivity; now rewrite mrun_cons|apply B].
    + change (resume_run sel D (inl Done :: l) (false, d)) with (resume_run sel D l (resume_step sel D (false, d) (inl Done))).
      cbn [resume_step resume_out]. rewrite DD, T by reflexivity. now rewrite mrun_cons.
    + change (resume_run sel D (inr e :: l) (false, d)) with (resume_run sel D l (resume_step sel D (false, d) (inr e))).
      cbn [resume_step resume_out]. rewrite DD. apply IH.
Qed.
Print Assumptions C41_resume_next.
Example C41_resume_case : resume_out (fun x => if x =? 5 then Some 6 else None) [inl (Next 1); inl (Err 4); inr (Next 2); inr Done] = [Next 1; Next 2; Done] /\
  o_log (snd (resume_run (fun x => if x =? 5 then Some 6 else None) plain [inl (Next 1); inl (Err 5); inr (Next 2); inr Done] (false, o_init))) = [Next 1; Err 6].
Proof. vm_compute. repeat split. Qed.

(** ** C42 *)
Lemma concat_evs : forall V (c : option nat) (l : list (ev V)),
  evs (concat_op V) c l =
  let (vs, e) := split_end l in
  match e with None => (vs, c, QOpen) | Some Done => (vs, c, QAgain) | Some e => (vs ++ [e], c, QEnd) end.
Proof.
  intros V c l. induction l as [|[v|x|] l IH]; cbn [evs split_end concat_op ron]; auto.
  rewrite IH. destruct (split_end l) as [vs [[w|y|]|]]; cbn; auto.
Qed.
Lemma concat_gen : forall V script n, gen (concat_op V) n script = concat_out n script.
Proof.
  intros V script. induction script as [|[now later|now z] r IH]; intro n.
  - destruct n as [[|n]|]; reflexivity.
  - destruct n as [[|n]|]; [reflexivity| |]; cbn [gen concat_op rpre concat_out]; fold (concat_op V); rewrite concat_evs;
      destruct (split_end (now ++ later)) as [vs [[w|y|]|]] eqn:SE; cbn [pred]; rewrite ?IH, ?app_nil_r; auto.
  - destruct n as [[|n]|]; [reflexivity| |]; cbn [gen concat_op rpre concat_out]; fold (concat_op V); rewrite concat_evs;
      destruct (split_end now) as [vs [[w|y|]|]] eqn:SE; auto; exfalso; eapply split_end_next; eauto.
Qed.
Theorem C42_concat : forall V n, resubscribes (concat_op V) n (concat_out n).
Proof.
  intros. apply resub_gen; [|intro; apply concat_gen]. split.
  - intros [[|m]|] x' e H; inversion H; reflexivity.
  - intros x e x' e' H. destruct e as [v|y|]; inversion H; reflexivity.
Qed.
Print Assumptions C42_concat.
(** Observables that complete: all values, then completion; repeat(n): n times the values of one
    observable; start_with: the given values first. *)
Theorem C42_all : forall V (vss : list (list V)) (cut : list V -> nat),
  concat_out (Some (length vss)) (map (fun vs => Calls (firstn (cut vs) (map Next vs ++ [Done])) (skipn (cut vs) (map Next vs ++ [Done]))) vss)
  = map Next (concat vss) ++ [Done].
Proof.
  assert (SE : forall V (l : list V), split_end (map Next l ++ [Done]) = (map Next l, Some Done)).
  { intros V l. induction l as [|v l IH]; cbn; auto. now rewrite IH. }
  intros V vss cut. induction vss as [|vs vss IH]; cbn [map concat length concat_out]; auto.
  rewrite firstn_skipn, SE. cbn [pred]. rewrite IH, map_app, <- app_assoc. reflexivity.
Qed.
Print Assumptions C42_all.
Theorem C42_repeat : forall V (vs : list V) n,
  concat_out (Some n) (repeat (Calls (map Next vs ++ [Done]) []) n) = map Next (concat (repeat vs n)) ++ [Done].
Proof.
  assert (MR : forall A B (f : A -> B) a n, map f (repeat a n) = repeat (f a) n) by (induction n; cbn; congruence).
  intros. pose proof (C42_all V (repeat vs n) (fun l => length (map Next l ++ [@Done V]))) as H.
  rewrite repeat_length, MR in H. rewrite firstn_all, skipn_all in H. exact H.
Qed.
Print Assumptions C42_repeat.
Definition cs_script : list (attempt (ev nat)) := [Calls [Next 1; Done] []; Calls [] [Next 2; Done]; Calls [Next 3] [Done]].
Definition cs_init := r_init (concat_op nat) plain cs_script (Some 3) o_init.
Definition cs_ex := gtol (rstep (concat_op nat) plain cs_script) (reps [(0, 30); (2, 40); (3, 20)]) (cs_init, r_threads cs_script 0).
Example C42_case : gexec (rstep (concat_op nat) plain cs_script) (cs_init, r_threads cs_script 0) (fst cs_ex) (snd cs_ex) /\
  o_log (r_d (fst (snd cs_ex))) = [Next 1; Next 2; Next 3; Done] /\ snd (snd cs_ex) = [[]; [IAsync 0]; []; []] /\
  fst cs_ex = [SSub 0 []; SRet 0; SSub 1 []; SRet 1; SSub 2 []; SRet 2].
Proof. split; [apply gtol_sound|]. vm_compute. repeat split. Qed.
