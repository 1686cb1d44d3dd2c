(** Final statements for concat (C33). *)
From Verif Require Import Base Machine MachineProofs Concur ObserverModel ChainModel ChainProofs.
From Verif Require Import MultiSpec MultiLin MultiRace MultiProps CallLin ConcatSpec ConcatModel ConcatProofs.

(** Any interleaving of the outer source and the inner observables in which no observable
    is put into the queue after the drain has found it empty ([c_late]): the downstream has
    received the output of a history that contains every call between its beginning and its
    end ([os]: a completion that already counts but has still to be sent); an observable is
    subscribed only when all before it have completed.
    Missing for the full claim: executions with c_late, for which it is false (below). *)
Theorem C33_concat_partial : forall V (D : machine V), lawful D -> forall d0 progs tr c,
  gexec (cistep K0 (cstep D)) (c_init D d0, cthreads progs) tr c ->
  exists h os, linearized progs tr h /\
    (c_late D (fst c) = false ->
       length os <= 1 /\ mrun D (c_down D (fst c)) os = mrun D d0 (outs concat_out h) /\
       (gfinished c -> os = []) /\
       (mdisp D (c_down D (fst c)) = false ->
          exists n, map fst (c_subs D (fst c)) = seq 1 n /\ n <= opened (live h) /\
                    forall j, 1 <= j < n -> completed j (live h) = true)).
Proof. intros V D L d0. exact (concat_linearizable D L d0). Qed.
Print Assumptions C33_concat_partial.

(** Calls that do not overlap: no such hypothesis. *)
Theorem C33_concat_sequential : forall V (D : machine V), lawful D -> forall d0 fuel h g,
  cseq K0 (cstep D) fuel (c_init D d0) h = Some g -> c_down D g = mrun D d0 (outs concat_out h).
Proof. intros V D L d0 fuel h g R. exact (proj2 (concat_seq D L d0 fuel h g R)). Qed.
Print Assumptions C33_concat_sequential.

(** The output of a history: the values of the observables in their order; nothing of a
    later one before the earlier ones have completed. *)
Definition cc_progs : list (list (ev (unit + nat))) :=
  [[Next (inl tt); Next (inl tt); Next (inl tt); Done]; [Next (inr 10); Next (inr 11); Done]; [Next (inr 20); Done]; [Next (inr 30); Done]].
Definition cc_ex := gtol (cistep K0 (cstep plain)) (reps [(0, 16); (1, 7); (0, 6); (2, 4); (1, 30); (0, 30); (2, 30); (3, 40)])
  (c_init plain o_init, cthreads cc_progs).
Example C33_case : gexec (cistep K0 (cstep plain)) (c_init plain o_init, cthreads cc_progs) (fst cc_ex) (snd cc_ex) /\
  snd (snd cc_ex) = [[]; []; []; []] /\ c_late plain (fst (snd cc_ex)) = false /\
  o_log (c_down plain (fst (snd cc_ex))) = [Next 10; Next 11; Next 20; Next 30; Done].
Proof. split; [apply gtol_sound|]. vm_compute. repeat split. Qed.
Example C33_sequential_case : exists g, cseq K0 (cstep plain) 50 (c_init plain o_init)
   [(0, Next (inl tt)); (1, Next (inr 10)); (0, Next (inl tt)); (1, Next (inr 11)); (1, Done); (2, Next (inr 20)); (0, Done); (2, Done)] = Some g /\
   o_log (c_down plain g) = [Next 10; Next 11; Next 20; Done].
Proof. eexists. split; [vm_compute; reflexivity | reflexivity]. Qed.

(** ** The race *)
Definition call_fail {G K A B} (start : K) (stp : G -> nat -> ev A -> K -> option (G * option K)) (g0 : G)
    (out : hist A -> nat -> ev A -> list (ev B)) (log : G -> list (ev B)) (D : machine B) (dlog : mst D -> list (ev B)) (d0 : mst D) : Prop :=
  exists progs tr c, gexec (cistep start stp) (g0, cthreads progs) tr c /\ gfinished c /\
    forall h, linearized progs tr h -> log (fst c) <> dlog (mrun D d0 (outs out h)).
Lemma call_fail_witness : forall G K A B (start : K) (stp : G -> nat -> ev A -> K -> option (G * option K)) g0
    (out : hist A -> nat -> ev A -> list (ev B)) log (D : machine B) dlog d0 progs sched (bad : list (ev B) -> bool),
  let ex := gtol (cistep start stp) sched (g0, cthreads progs) in
  forallb (fun t => match t with [] => true | _ => false end) (snd (snd ex)) = true ->
  bad (log (fst (snd ex))) = true ->
  forallb (fun h => negb (bad (dlog (mrun D d0 (outs out h))))) (inter (length (List.concat progs)) progs) = true ->
  call_fail start stp g0 out log D dlog d0.
Proof.
  intros G K A B start stp g0 out log D dlog d0 progs sched bad ex F BD NB. exists progs, (fst ex), (snd ex). split; [apply gtol_sound|].
  split; [now apply finished_all|]. intros h LI E. apply all_linearizations in LI. rewrite forallb_forall in NB. apply NB in LI.
  rewrite <- E, BD in LI. discriminate.
Qed.

(** The outer source's on_next fails its compare_exchange, inner 1 completes and its drain
    finds the queue empty and sets the stage to None, and only then the outer source
    pushes: observable 2 stays in the queue until observable 3 arrives, and 3 goes first. *)
Definition race_progs : list (list (ev (unit + nat))) :=
  [[Next (inl tt); Next (inl tt); Next (inl tt)]; [Done]; [Next (inr 20); Done]; [Next (inr 30); Done]].
Definition is_30_20 (l : list (ev nat)) : bool := match l with [Next a; Next b] => (a =? 30) && (b =? 20) | _ => false end.
Theorem C33_concat_race_refuted :
  call_fail K0 (cstep (@plain nat)) (c_init plain o_init) concat_out (fun g => o_log (c_down plain g)) plain (@o_log nat) o_init.
Proof.
  apply (call_fail_witness _ _ _ _ K0 (cstep plain) (c_init plain o_init) concat_out (fun g => o_log (c_down plain g)) plain (@o_log nat) o_init
           race_progs (reps [(0, 8); (0, 3); (1, 30); (0, 30); (3, 30); (2, 30)]) is_30_20); vm_compute; reflexivity.
Qed.
Print Assumptions C33_concat_race_refuted.
