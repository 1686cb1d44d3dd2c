(** Final statements for window, group_by and window_toggle (C29, C30, C56, C60). *)
From Verif Require Import Base Machine MachineProofs ObserverModel ChainModel ChainProofs MultiProps SubjSpec SubjModel SubjProofs FanSpec FanModel FanProofs FanOps.

(** What all three have to achieve for a history h.  [out]: the outer sequence; [part i]:
    the calls window i's subject gets.  [init] is the state before the history, [x0] the
    operator's part of it.
    - The run does not meet undefined behaviour.
    - The outer observer has got exactly [out].
    - Every observer of every window ends as if it alone had got its part ([received]); mkill is
      what unsubscription itself does.
    - The source is released exactly when the outer observer and all observers of windows
      are done or unsubscribed; after a terminal event ([over]) that is so. *)
Definition fan_ok {V X E} (D : machine V) (O : machine nat) (now : nat -> list nat) (d0 : mst D) (o0 : mst O)
  (plan : X -> bool -> E -> X * list (mop (V := V))) (x0 : X) (out : outer) (part : nat -> list (sop V)) (over : bool) (h : list (fop E)) : Prop :=
  exists x f, hrun D O now plan (x0, fan_init D O d0 o0) h = Some (x, f) /\
    f_out D O f = fold_left (fun o x => match x with Some e => mstep O o e | None => mkill O o end) out o0 /\
    (forall i j, s_sub D (f_subs D O f i) j =
       if unsubbed j (part i) then mkill D (mrun D d0 (received j (part i))) else mrun D d0 (received j (part i))) /\
    (f_gone D O f = true <-> mdisp O (f_out D O f) = true /\ forall i j, In j (subs (part i)) -> mdisp D (s_sub D (f_subs D O f i) j) = true) /\
    (over = true -> f_gone D O f = true).

(** Observers are subscribed once to each window, and not after everything is released. *)
Definition distinct {V} (part : nat -> list (sop V)) : Prop := forall i, NoDup (subs (part i)).
Definition in_time {V X E} (D : machine V) (O : machine nat) (now : nat -> list nat) (d0 : mst D) (o0 : mst O)
  (plan : X -> bool -> E -> X * list (mop (V := V))) (x0 : X) (h : list (fop E)) : Prop :=
  forall h1 i j h2 x f, h = h1 ++ FSub i j :: h2 -> hrun D O now plan (x0, fan_init D O d0 o0) h1 = Some (x, f) -> f_gone D O f = false.
(** Nobody listens to the outer sequence when window i comes. *)
Definition unheard (O : machine nat) (o0 : mst O) (out : outer) (i : nat) : bool :=
  mdisp O (fold_left (fun o x => match x with Some e => mstep O o e | None => mkill O o end) (upto i out) o0).
Definition has_end {V} (h : list (fop (ev V))) : bool := existsb (fun o => match o with FEv e => is_term e | _ => false end) h.

(** ** C29 *)
Theorem C29_window : forall V (D : machine V), lawful D -> forall O : machine nat, lawful O -> forall now d0 o0 size h,
  let n := Nat.max 1 size in let out := w_outer n 0 h in let part i := w_part now n (unheard O o0 out) i false 0 h in
  distinct part -> in_time D O now d0 o0 (w_plan n) (w_init n) h ->
  fan_ok D O now d0 o0 (w_plan n) (w_init n) out part (has_end h) h.
Proof. intros V D LD O LO now d0 o0 size h n out part N T. exact (window_run D LD O LO now d0 o0 n (Nat.le_max_l 1 size) h N T). Qed.
Print Assumptions C29_window.

(** ** C30 *)
Theorem C30_group_by : forall A V (key : A -> exn + nat) (elem : A -> exn + V) (D : machine V), lawful D -> forall O : machine nat, lawful O -> forall now d0 o0 h,
  let out := g_outer key elem [] h in let part i := g_part now key elem (unheard O o0 out) i false [] h in
  distinct part -> in_time D O now d0 o0 (g_plan key elem) [] h ->
  fan_ok D O now d0 o0 (g_plan key elem) [] out part (has_end h) h.
Proof. intros A V key elem D LD O LO now d0 o0 h out part N T. exact (group_by_run key elem D LD O LO now d0 o0 h N T). Qed.
Print Assumptions C30_group_by.

(** ** C56 *)
Theorem C56_window_toggle : forall V (D : machine V), lawful D -> forall O : machine nat, lawful O -> forall now d0 o0 h,
  let out := t_outer 0 [] h in let part i := t_part now (unheard O o0 out) i false 0 [] h in
  distinct part -> in_time D O now d0 o0 t_plan t_init h ->
  fan_ok D O now d0 o0 t_plan t_init out part (existsb (fun o => match o with FEv (TSrc e) => is_term e | FEv (TOpen (Err _)) => true | _ => false end) h) h.
Proof. intros V D LD O LO now d0 o0 h out part N T. exact (toggle_run D LD O LO now d0 o0 h N T). Qed.
Print Assumptions C56_window_toggle.

(** ** Cases *)

(** Every window gets observer 0 at once. *)
Definition first (i : nat) : list nat := [0].
Definition sub_part (h : list (fop (ev nat))) (i : nat) := w_part first 2 (unheard plain o_init (w_outer 2 0 h)) i false 0 h.
Ltac in_time_case := intros h1 i j h2 x f E R; repeat (destruct h1 as [|? h1]; [try discriminate E; injection E; intros; subst; vm_compute in R; injection R; intros; subst; reflexivity | injection E as <- E; try discriminate E]); destruct h1; discriminate E.
Definition w_hist : list (fop (ev nat)) := [FEv (Next 1); FSub 0 5; FEv (Next 2); FEv (Next 3); FDrop; FEv (Next 4); FUnsub 1 0; FEv (Next 5); FEv Done].
Example C29_case :
  distinct (sub_part w_hist) /\ in_time plain plain first o_init o_init (w_plan 2) (w_init 2) w_hist /\
  w_outer 2 0 w_hist = [Some (Next 0); Some (Next 1); None; Some (Next 2); Some Done] /\
  received 0 (sub_part w_hist 0) = [Next 1; Next 2; Done] /\ received 5 (sub_part w_hist 0) = [Next 2; Done] /\ received 0 (sub_part w_hist 1) = [Next 3; Next 4; Done] /\ received 0 (sub_part w_hist 2) = [] /\
  exists x f, hrun plain plain first (w_plan 2) (w_init 2, fan_init plain plain o_init o_init) w_hist = Some (x, f) /\
    o_log (f_out plain plain f) = [Next 0; Next 1] /\ o_log (s_sub plain (f_subs plain plain f 0) 0) = [Next 1; Next 2; Done] /\ f_gone plain plain f = true.
Proof.
  repeat split; try reflexivity.
  - intro i. destruct i as [|[|[|i]]]; vm_compute; repeat constructor; cbn; intuition congruence.
  - in_time_case.
  - eexists _, _. split; [vm_compute; reflexivity|]. repeat split; reflexivity.
Qed.

Definition g_key (a : nat) : exn + nat := if a =? 99 then inl 7 else inr (a mod 3).
Definition g_elem (a : nat) : exn + nat := inr (10 * a).
Definition grp (h : list (fop (ev nat))) (i : nat) := g_part first g_key g_elem (unheard plain o_init (g_outer g_key g_elem [] h)) i false [] h.
Definition g_hist : list (fop (ev nat)) := [FEv (Next 1); FEv (Next 3); FSub 1 5; FEv (Next 4); FDrop; FEv (Next 5); FEv (Next 6); FUnsub 0 0; FEv (Next 7); FEv (Next 99); FEv (Next 1)].
Example C30_case :
  distinct (grp g_hist) /\ in_time plain plain first o_init o_init (g_plan g_key g_elem) [] g_hist /\
  g_outer g_key g_elem [] g_hist = [Some (Next 1); Some (Next 0); None; Some (Next 2); Some (Err 7)] /\
  received 0 (grp g_hist 1) = [Next 10; Next 40; Next 70; Err 7] /\ received 5 (grp g_hist 1) = [Next 40; Next 70; Err 7] /\ received 0 (grp g_hist 0) = [Next 30; Next 60] /\ received 0 (grp g_hist 2) = [] /\
  exists x f, hrun plain plain first (g_plan g_key g_elem) ([], fan_init plain plain o_init o_init) g_hist = Some (x, f) /\
    o_log (f_out plain plain f) = [Next 1; Next 0] /\ o_log (s_sub plain (f_subs plain plain f 1) 0) = [Next 10; Next 40; Next 70; Err 7] /\ f_gone plain plain f = true.
Proof.
  repeat split; try reflexivity.
  - intro i. destruct i as [|[|[|i]]]; vm_compute; repeat constructor; cbn; intuition congruence.
  - in_time_case.
  - eexists _, _. split; [vm_compute; reflexivity|]. repeat split; reflexivity.
Qed.
(** Everybody leaves: the source is released before it ends. *)
Example C30_release : exists x f, hrun plain plain first (g_plan g_key g_elem) ([], fan_init plain plain o_init o_init) [FEv (Next 1); FDrop; FEv (Next 4); FUnsub 1 0] = Some (x, f) /\
  o_log (s_sub plain (f_subs plain plain f 1) 0) = [Next 10; Next 40] /\ f_gone plain plain f = true.
Proof. eexists _, _. split; [vm_compute; reflexivity|]. split; reflexivity. Qed.

Definition tog (h : list (fop (tev nat))) (i : nat) := t_part first (unheard plain o_init (t_outer 0 [] h)) i false 0 [] h.
Definition t_hist : list (fop (tev nat)) :=
  [FEv (TSrc (Next 1)); FEv (TOpen (Next tt)); FEv (TSrc (Next 2)); FEv (TOpen (Next tt)); FSub 0 5; FEv (TSrc (Next 3)); FEv (TClose 0 (Next tt)); FEv (TClose 0 Done); FEv (TSrc (Next 4)); FEv (TOpen Done); FEv (TSrc (Err 9))].
Example C56_case :
  distinct (tog t_hist) /\ in_time plain plain first o_init o_init t_plan t_init t_hist /\
  t_outer 0 [] t_hist = [Some (Next 0); Some (Next 1); Some (Err 9)] /\
  received 0 (tog t_hist 0) = [Next 2; Next 3; Done] /\ received 5 (tog t_hist 0) = [Next 3; Done] /\ received 0 (tog t_hist 1) = [Next 3; Next 4; Err 9] /\
  exists x f, hrun plain plain first t_plan (t_init, fan_init plain plain o_init o_init) t_hist = Some (x, f) /\
    o_log (f_out plain plain f) = [Next 0; Next 1; Err 9] /\ o_log (s_sub plain (f_subs plain plain f 1) 0) = [Next 3; Next 4; Err 9] /\ f_gone plain plain f = true.
Proof.
  repeat split; try reflexivity.
  - intro i. destruct i as [|[|[|i]]]; vm_compute; repeat constructor; cbn; intuition congruence.
  - in_time_case.
  - eexists _, _. split; [vm_compute; reflexivity|]. repeat split; reflexivity.
Qed.

(** ** C60 *)

(** Once a window of window or window_toggle has been closed, a subscription to it
    reaches nobody: the observer never hears anything, not even the completion. *)
Theorem C60_late_refuted : forall V (D : machine V) (O : machine nat) now (f : fan D O) i j, f_lost D O f i = true ->
  fexec D O now f (MSub i j) = Some f.
Proof. intros V D O now f i j H. cbn. rewrite H, andb_false_r. reflexivity. Qed.
Print Assumptions C60_late_refuted.
(** window(2): observer 5 subscribes to window 0 after it has completed; the whole sequence
    completes, but observer 5 has got nothing.  The same with window_toggle. *)
Definition late {X E} (plan : X -> bool -> E -> X * list (mop (V := nat))) (x : X) (h : list (fop E)) : option (list (ev nat) * list (ev nat)) :=
  match hrun plain plain first plan (x, fan_init plain plain o_init o_init) h with
  | Some (_, f) => Some (o_log (s_sub plain (f_subs plain plain f 0) 0), o_log (s_sub plain (f_subs plain plain f 0) 5))
  | None => None
  end.
Theorem C60_window_refuted : late (w_plan 2) (w_init 2) [FEv (Next 1); FEv (Next 2); FSub 0 5; FEv (Next 3); FEv Done] = Some ([Next 1; Next 2; Done], []).
Proof. reflexivity. Qed.
Print Assumptions C60_window_refuted.
Theorem C60_toggle_refuted : late t_plan t_init [FEv (TOpen (Next tt)); FEv (TSrc (Next 1)); FEv (TClose 0 Done); FSub 0 5; FEv (TSrc Done)] = Some ([Next 1; Done], []).
Proof. reflexivity. Qed.
Print Assumptions C60_toggle_refuted.
