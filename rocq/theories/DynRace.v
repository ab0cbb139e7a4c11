(** The two branches of a parallel insertion into the dynamic kd-tree
    (include/dynamicKdTree/dynKdTree.h:687-720), when both children are buckets
    that get replaced.  Steps of the two branches interleave (par_do at 720,
    batches of 2000 or more). *)
From Verif Require Import Base.

(** The member variables [left] and [right]. *)
Inductive side := SL | SR.

(** State: the two member variables, the freed objects, the [siblin] field of
    every object. *)
Record rst := { vl : nat; vr : nat; freed : list nat; sib : nat -> nat }.
Definition var (s : rst) (v : side) : nat := match v with SL => vl s | SR => vr s end.
Definition setVar (s : rst) (v : side) (x : nat) : rst :=
  match v with
  | SL => {| vl := x; vr := vr s; freed := freed s; sib := sib s |}
  | SR => {| vl := vl s; vr := x; freed := freed s; sib := sib s |}
  end.

(** Atomic steps: [Delete v] frees *v; [Assign v x]; [Load v w] reads the object
    and the argument of [v->setSiblin(w)] into the thread's registers; [Store]
    performs the call. *)
Inductive rop := Delete (v : side) | Assign (v : side) (x : nat) | Load (v w : side) | Store.

(** Lines 687-699 (insertLeft) and 701-713 (insertRight) after the recursive
    call returned the new node [x]. *)
Definition branch (v : side) (x : nat) : list rop :=
  [Delete v; Assign v x; Load SL SR; Store; Load SR SL; Store].

Definition step (s : rst) (reg : nat * nat) (o : rop) : res (rst * (nat * nat)) :=
  match o with
  | Delete v => if existsb (Nat.eqb (var s v)) (freed s) then UB
                else Ok ({| vl := vl s; vr := vr s; freed := var s v :: freed s; sib := sib s |}, reg)
  | Assign v x => Ok (setVar s v x, reg)
  | Load v w => Ok (s, (var s v, var s w))
  | Store => let '(o, a) := reg in
             if existsb (Nat.eqb o) (freed s) then UB
             else Ok ({| vl := vl s; vr := vr s; freed := freed s;
                         sib := fun x => if x =? o then a else sib s x |}, reg)
  end.

(** [sched]: true runs the next step of the first branch, false of the second. *)
Fixpoint runRace (sched : list bool) (s : rst) (p1 p2 : list rop) (r1 r2 : nat * nat) : res rst :=
  match sched with
  | [] => match p1, p2 with [], [] => Ok s | _, _ => Fuel end
  | true :: sc => match p1 with
                  | [] => runRace sc s p1 p2 r1 r2
                  | o :: p1' => '(s', r1') <- step s r1 o ;; runRace sc s' p1' p2 r1' r2
                  end
  | false :: sc => match p2 with
                   | [] => runRace sc s p1 p2 r1 r2
                   | o :: p2' => '(s', r2') <- step s r2 o ;; runRace sc s' p1 p2' r1 r2'
                   end
  end.

Definition parInsert (sched : list bool) (l0 r0 l1 r1 : nat) : res rst :=
  runRace sched {| vl := l0; vr := r0; freed := []; sib := fun x => if x =? l0 then r0 else l0 |}
    (branch SL l1) (branch SR r1) (0, 0) (0, 0).

(** What the tree needs afterwards: the children are the new nodes, alive, and
    siblings of each other. *)
Definition consistent (s : rst) (l1 r1 : nat) : Prop :=
  vl s = l1 /\ vr s = r1 /\ ~ In l1 (freed s) /\ ~ In r1 (freed s) /\ sib s l1 = r1 /\ sib s r1 = l1.

Lemma sequential_ok l0 r0 l1 r1 : NoDup [l0; r0; l1; r1] -> forall first : bool,
  exists s, parInsert (repeat first 6 ++ repeat (negb first) 6) l0 r0 l1 r1 = Ok s /\ consistent s l1 r1.
Proof.
  intros ND first.
  inversion ND as [|? ? H1 ND1]; subst. inversion ND1 as [|? ? H2 ND2]; subst.
  inversion ND2 as [|? ? H3 _]; subst. simpl in H1, H2, H3.
  assert (Q : forall a b : nat, a <> b -> (a =? b) = false) by (intros; apply Nat.eqb_neq; auto).
  assert (E1 : l1 =? l0 = false) by (apply Q; intuition congruence). assert (E2 : r1 =? l0 = false) by (apply Q; intuition congruence).
  assert (E3 : r0 =? l0 = false) by (apply Q; intuition congruence). assert (E4 : l1 =? r0 = false) by (apply Q; intuition congruence).
  assert (E5 : r1 =? r0 = false) by (apply Q; intuition congruence). assert (E6 : l0 =? r0 = false) by (apply Q; intuition congruence).
  assert (E7 : r1 =? l1 = false) by (apply Q; intuition congruence). assert (E8 : l1 =? r1 = false) by (apply Q; intuition congruence).
  destruct first; unfold parInsert; cbn [repeat app negb runRace branch];
    repeat (cbn [step var setVar vl vr freed sib existsb bind orb];
            rewrite ?E1, ?E2, ?E3, ?E4, ?E5, ?E6, ?E7, ?E8);
    (eexists; split; [reflexivity|]);
    unfold consistent; cbn [vl vr freed sib]; rewrite ?Nat.eqb_refl, ?E7, ?E8; simpl; intuition congruence.
Qed.
