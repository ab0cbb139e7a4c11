(** Model of the compare-and-swap loops of include/pargeo/atomics.h:29-90 as a
    state machine run under an arbitrary schedule. *)
From Verif Require Import Base.
Set Implicit Arguments.

Section Cas.
  (** Values of the shared cell; [veq] is the bitwise comparison done by
      compare-and-swap (lines 7-26). *)
  Variable V : Type.
  Variable veq : V -> V -> bool.
  Variable B : Type.                  (* argument type *)
  Variable Ret : Type.                (* what the call returns *)
  (** One operation: after reading [c] it gives up when [cond b c] is false
      (returning [retF]), else tries to replace [c] by [new b c], returning
      [retT b c] when the swap succeeds and starting over otherwise. *)
  Variable cond : B -> V -> bool.
  Variable new : B -> V -> V.
  Variable retT : B -> V -> Ret.
  Variable retF : B -> V -> Ret.

  Inductive pc := Start | Try (c : V) | Done (r : Ret).

  Record state := { cell : V; threads : list (B * pc) }.

  (** One atomic action of thread [i]: a load (with the local test that
      follows it) or a compare-and-swap. *)
  Definition step (st : state) (i : nat) : state :=
    match nth_error (threads st) i with
    | None => st
    | Some (b, Start) =>
      {| cell := cell st;
         threads := upd i (b, if cond b (cell st) then Try (cell st) else Done (retF b (cell st)))
                        (threads st) |}
    | Some (b, Try c) =>
      if veq (cell st) c
      then {| cell := new b c; threads := upd i (b, Done (retT b c)) (threads st) |}
      else {| cell := cell st; threads := upd i (b, Start) (threads st) |}
    | Some (_, Done _) => st
    end.

  Definition initial (v0 : V) (args : list B) : state :=
    {| cell := v0; threads := map (fun b => (b, Start)) args |}.
  Definition run (v0 : V) (args : list B) (sched : list nat) : state :=
    fold_left step sched (initial v0 args).

  (** All calls have returned, with these results in thread order. *)
  Definition results (st : state) (rs : list Ret) : Prop :=
    map snd (threads st) = map Done rs.

  (** The same operation executed without interference. *)
  Definition seqop (b : B) (v : V) : V * Ret :=
    if cond b v then (new b v, retT b v) else (v, retF b v).
  (** Sequential execution of the calls in the given order: final value and
      the result of each call. *)
  Fixpoint seqrun (args : list B) (order : list nat) (v : V) : V * list (nat * Ret) :=
    match order with
    | [] => (v, [])
    | i :: order' =>
      match nth_error args i with
      | None => seqrun args order' v
      | Some b => let '(v1, r) := seqop b v in
                  let '(v2, rs) := seqrun args order' v1 in (v2, (i, r) :: rs)
      end
    end.
End Cas.

Arguments Start {V Ret}.
Arguments Try {V Ret} c.
Arguments Done {V Ret} r.
Arguments cell {V B Ret} s.
Arguments threads {V B Ret} s.

(** write_min (lines 56-62 and 64-70), write_max (72-86) *)
Definition wmin_run {V} (veq less : V -> V -> bool) :=
  run veq (fun b c => less b c) (fun b _ => b) (fun _ _ => true) (fun _ _ => false).
Definition wmax_run {V} (veq less : V -> V -> bool) :=
  run veq (fun b c => less c b) (fun b _ => b) (fun _ _ => true) (fun _ _ => false).
(** write_add (lines 38-52), fetch_and_add (29-35) *)
Definition wadd_run {V} (veq : V -> V -> bool) (add : V -> V -> V) :=
  run veq (fun _ _ => true) (fun b c => add c b) (fun _ _ => tt) (fun _ _ => tt).
Definition fadd_run {V} (veq : V -> V -> bool) (add : V -> V -> V) :=
  run veq (fun _ _ => true) (fun b c => add c b) (fun _ c => c) (fun _ c => c).
