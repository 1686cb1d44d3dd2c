(** Observer whose callbacks call the same observer again (same thread).
    /repo/src/rpp/rpp/observers/observer.hpp:84-144: on_error / on_completed set the
    disposed flag (finally_action) only AFTER the strategy callback returned. *)
From Verif Require Import Base.

Section Reentrant.
  Context {V : Type}.

  Record rstate := RState { r_flag : bool; r_log : list (ev V) }.

  (** [react log] = the calls the user callback makes on the same observer while it
      handles the last event of [log]. *)
  Variable react : list (ev V) -> list (ev V).

  (** One call on the observer, with everything it triggers re-entrantly.
      [None] = out of fuel (unbounded recursion), a distinct outcome.
      observer.hpp:84-95 (on_next), 120-129 (on_error), 135-144 (on_completed). *)
  Fixpoint r_call (fuel : nat) (s : rstate) (e : ev V) : option rstate :=
    match fuel with
    | 0 => None
    | S k =>
        if r_flag s then Some s
        else
          let s1 := RState (r_flag s) (r_log s ++ [e]) in
          let fix go (calls : list (ev V)) (s : rstate) : option rstate :=
            match calls with
            | [] => Some s
            | c :: r => match r_call k s c with Some s' => go r s' | None => None end
            end in
          match go (react (r_log s1)) s1 with
          | None => None
          | Some s2 =>
              match e with
              | Next _ => Some s2
              | _ => Some (RState true (r_log s2))   (* m_disposable.dispose() *)
              end
          end
    end.

  Fixpoint r_run (fuel : nat) (s : rstate) (l : list (ev V)) : option rstate :=
    match l with
    | [] => Some s
    | e :: r => match r_call fuel s e with Some s' => r_run fuel s' r | None => None end
    end.
End Reentrant.
Arguments rstate V : clear implicits.
