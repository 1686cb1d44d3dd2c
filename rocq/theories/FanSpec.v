(** What operators that hand out observables (window, group_by, window_toggle) have to do.
    Windows and groups are numbered (groups by their key).  The subscriber of the outer
    sequence subscribes the observers [now i] to window i in its on_next callback. *)
From Verif Require Import Base SubjSpec.

(** A history: events of the sources (E: which kind), observer j is subscribed to window i
    or unsubscribed, the outer sequence is unsubscribed. *)
Inductive fop (E : Type) := FEv (x : E) | FSub (i j : nat) | FUnsub (i j : nat) | FDrop.
Arguments FEv {E} x.
Arguments FSub {E} i j.
Arguments FUnsub {E} i j.
Arguments FDrop {E}.

(** The outer sequence: Some e = an event, None = unsubscription. *)
Definition outer := list (option (ev nat)).
(** The part before window i is delivered. *)
Fixpoint upto (i : nat) (l : outer) : outer :=
  match l with
  | [] => []
  | Some (Next k) :: r => if k =? i then [] else Some (Next k) :: upto i r
  | x :: r => x :: upto i r
  end.

Section Fan.
  Context {V : Type} (now : nat -> list nat).

  (** ** window(n); c values have arrived; [dead i]: nobody listens when window i comes *)
  Section Window.
    Variable n : nat.
    Fixpoint w_outer (c : nat) (h : list (fop (ev V))) : outer :=
      match h with
      | [] => []
      | FEv (Next _) :: r => (if c mod n =? 0 then [Some (Next (c / n))] else []) ++ w_outer (S c) r
      | FEv (Err x) :: _ => [Some (Err x)]
      | FEv Done :: _ => [Some Done]
      | FDrop :: r => None :: w_outer c r
      | _ :: r => w_outer c r
      end.
    (** Window i holds the values number i*n .. i*n+n-1. *)
    Variable dead : nat -> bool.
    Fixpoint w_part (i : nat) (over : bool) (c : nat) (h : list (fop (ev V))) : list (sop V) :=
      match h with
      | [] => []
      | FEv e :: r =>
          if over then w_part i over c r
          else match e with
               | Next v => (if c / n =? i then (if (c mod n =? 0) && negb (dead i) then map OSub (now i) else []) ++ [OEmit e] ++
                                               (if S c mod n =? 0 then [OEmit Done] else []) else [])
                           ++ w_part i over (S c) r
               | _ => (if (c / n =? i) && negb (c mod n =? 0) then [OEmit e] else []) ++ w_part i true c r
               end
      | FSub k j :: r => (if (k =? i) && (i * n <? c) && (c <? i * n + n) then [OSub j] else []) ++ w_part i over c r
      | FUnsub k j :: r => (if k =? i then [OUnsub j] else []) ++ w_part i over c r
      | FDrop :: r => w_part i over c r
      end.
  End Window.

  (** ** group_by; [key], [elem]: the selectors, which may throw *)
  Section Group.
    Context {A : Type} (key : A -> exn + nat) (elem : A -> exn + V).
    Definition mem (k : nat) (l : list nat) : bool := existsb (Nat.eqb k) l.
    Fixpoint g_outer (seen : list nat) (h : list (fop (ev A))) : outer :=
      match h with
      | [] => []
      | FEv (Next a) :: r =>
          match key a with
          | inl x => [Some (Err x)]
          | inr k => (if mem k seen then [] else [Some (Next k)]) ++
                     match elem a with inl x => [Some (Err x)] | inr _ => g_outer (k :: seen) r end
          end
      | FEv (Err x) :: _ => [Some (Err x)]
      | FEv Done :: _ => [Some Done]
      | FDrop :: r => None :: g_outer seen r
      | _ :: r => g_outer seen r
      end.
    Variable dead : nat -> bool.
    (** Group i; it exists unless nobody listened when its key came first. *)
    Fixpoint g_part (i : nat) (over : bool) (seen : list nat) (h : list (fop (ev A))) : list (sop V) :=
      let all e := if mem i seen && negb (dead i) then [OEmit e] else [] in
      match h with
      | [] => []
      | FEv e :: r =>
          if over then g_part i over seen r
          else match e with
               | Next a =>
                   match key a with
                   | inl x => all (Err x) ++ g_part i true seen r
                   | inr k =>
                       let all e := if mem i (k :: seen) && negb (dead i) then [OEmit e] else [] in
                       (if (k =? i) && negb (mem k seen) && negb (dead k) then map OSub (now i) else []) ++
                       (if dead k then g_part i over (k :: seen) r
                        else match elem a with
                             | inl x => all (Err x) ++ g_part i true (k :: seen) r
                             | inr v => (if k =? i then [OEmit (Next v)] else []) ++ g_part i over (k :: seen) r
                             end)
                   end
               | Err x => all (Err x) ++ g_part i true seen r
               | Done => all Done ++ g_part i true seen r
               end
      | FSub k j :: r => (if (k =? i) && mem i seen && negb (dead i) then [OSub j] else []) ++ g_part i over seen r
      | FUnsub k j :: r => (if k =? i then [OUnsub j] else []) ++ g_part i over seen r
      | FDrop :: r => g_part i over seen r
      end.
  End Group.

  (** ** window_toggle; events of the source, of the openings and of closing observable i *)
  Inductive tev := TSrc (e : ev V) | TOpen (e : ev unit) | TClose (i : nat) (e : ev unit).
  Section Toggle.
    (** [num]: windows opened so far; [shut]: those closed by their closing observable. *)
    Fixpoint t_outer (num : nat) (shut : list nat) (h : list (fop tev)) : outer :=
      match h with
      | [] => []
      | FEv (TSrc (Err x)) :: _ => [Some (Err x)]
      | FEv (TSrc Done) :: _ => [Some Done]
      | FEv (TOpen (Next _)) :: r => Some (Next num) :: t_outer (S num) shut r
      | FEv (TOpen (Err x)) :: _ => [Some (Err x)]
      | FEv (TClose i (Err x)) :: r => if (i <? num) && negb (mem i shut) then [Some (Err x)] else t_outer num shut r
      | FEv (TClose i _) :: r => t_outer num (if i <? num then i :: shut else shut) r
      | FDrop :: r => None :: t_outer num shut r
      | _ :: r => t_outer num shut r
      end.
    Variable dead : nat -> bool.
    Fixpoint t_part (i : nat) (over : bool) (num : nat) (shut : list nat) (h : list (fop tev)) : list (sop V) :=
      let on := (i <? num) && negb (mem i shut) in
      match h with
      | [] => []
      | FEv x :: r =>
          if over then t_part i over num shut r
          else match x with
               | TSrc (Next v) => (if on then [OEmit (Next v)] else []) ++ t_part i over num shut r
               | TSrc (Err y) => (if on then [OEmit (Err y)] else []) ++ t_part i true num shut r
               | TSrc Done => (if on then [OEmit Done] else []) ++ t_part i true num shut r
               | TOpen (Next _) => (if (num =? i) && negb (dead i) then map OSub (now i) else []) ++ t_part i over (S num) shut r
               | TOpen (Err y) => (if on then [OEmit (Err y)] else []) ++ t_part i true num shut r
               | TOpen Done => t_part i over num shut r
               | TClose k (Err y) =>
                   if (k <? num) && negb (mem k shut) then (if on then [OEmit (Err y)] else []) ++ t_part i true num shut r
                   else t_part i over num shut r
               | TClose k _ => (if (k =? i) && on then [OEmit Done] else []) ++ t_part i over num (if k <? num then k :: shut else shut) r
               end
      | FSub k j :: r => (if (k =? i) && on then [OSub j] else []) ++ t_part i over num shut r
      | FUnsub k j :: r => (if k =? i then [OUnsub j] else []) ++ t_part i over num shut r
      | FDrop :: r => t_part i over num shut r
      end.
  End Toggle.
End Fan.
Arguments tev V : clear implicits.
