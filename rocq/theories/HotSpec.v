(** What C87 says, without the model: labels of the observable events and the moment in which a
    late upstream can be missed. *)
From Verif Require Import Base.

Inductive hlab :=
| HJoin (i : nat)      (* observer i is entered in the subject's list *)
| HLook (i : nat)      (* set_upstream of observer i finds it alive *)
| HPut (i : nat)       (* ... and hands the upstream to it *)
| HGot (i : nat)       (* observer i's on_next is called *)
| HEnds (i : nat)      (* observer i is disposed (terminal event or dispose()) *)
| HSwept (i : nat)     (* ... and has disposed the upstreams it held at this moment *)
| HLeave (i : nat).    (* the subject gives observer i up *)

(** Observer i released its upstreams between the check and the hand-over. *)
Definition late (i : nat) (tr : list hlab) : Prop :=
  exists a b c d, tr = a ++ HLook i :: b ++ HSwept i :: c ++ HPut i :: d.
