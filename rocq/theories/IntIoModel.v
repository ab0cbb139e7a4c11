(** Integer sequence files: include/pargeo/IO.h.  Definitions only. *)
From Coq Require Import Ascii String NArith ZArith.
From Verif Require Import Base Sched IoModel GraphIoModel.
Set Implicit Arguments.
Open Scope list_scope.
Open Scope nat_scope.

(** The element types, their ranges, IO.h 106-116: the widths *)
Inductive ikind := Int | Uint | Long | Ulong.
Definition iW (k : ikind) : nat := match k with Int | Uint => 12 | Long | Ulong => 21 end.
Definition iLo (k : ikind) : Z := match k with Int => - 2 ^ 31 | Long => - 2 ^ 63 | _ => 0 end.
Definition iHi (k : ikind) : Z := match k with Int => 2 ^ 31 | Uint => 2 ^ 32 | Long => 2 ^ 63 | Ulong => 2 ^ 64 end.
(** IO.h 107, 110, 113, 116: [%ld], [%lu], [%u], [%d] *)
Definition ldText (z : Z) : text :=
  if (z <? 0)%Z then "-"%char :: luText (Z.to_N (- z)) else luText (Z.to_N z).

(** IO.h 158-180 on integers: one thread for each element *)
Definition intThreads (k : ikind) (z : Z) : list (list cell) := [[(ldText z, iW k, NL)]].
Definition intSeqToString (k : ikind) (sched : list nat) (A : list Z) : res text :=
  threadsToString sched (flat_map (intThreads k) A).
(** IO.h 182-210, 242-247 *)
Definition intHeader : text := txt "sequenceInt".
Definition writeIntSeqToFile (k : ikind) (bsize : nat) (scheds : nat -> list nat) (A : list Z) : res text :=
  body <- writeFileG (intSeqToString k) bsize scheds A ;;
  Ok (intHeader ++ [NL] ++ body).

(** parlay::tokens (IO.h 249-257): the longest runs of characters that are not spaces *)
Fixpoint tokF (cur : text) (s : text) : list text :=
  match s with
  | [] => match cur with [] => [] | _ => [cur] end
  | c :: s' =>
    if is_space c then match cur with [] => tokF [] s' | _ => cur :: tokF [] s' end
    else tokF (cur ++ [c]) s'
  end.
Definition tokens (s : text) : list text := tokF [] s.
Fixpoint textEq (a b : text) : bool :=
  match a, b with
  | [], [] => true
  | x :: a', y :: b' => ceq x y && textEq a' b'
  | _, _ => false
  end.
(** the conversion of a [long] to the element type (two's complement) *)
Definition iCast (k : ikind) (z : Z) : Z := ((z - iLo k) mod (iHi k - iLo k) + iLo k)%Z.

(** IO.h 259-270; [charsToLong] is parlay::chars_to_long *)
Definition readIntSeqFromFile (charsToLong : text -> res Z) (k : ikind) (file : text) : res (list Z) :=
  match tokens file with
  | [] => UB
  | h :: ws =>
    if textEq h intHeader then mapM (fun w => z <- charsToLong w ;; Ok (iCast k z)) ws
    else Throw
  end.

(** A chars_to_long: an optional sign, then digits *)
Fixpoint digitsVal (a : Z) (s : text) : Z :=
  match s with
  | [] => a
  | c :: s' =>
    let d := nat_of_ascii c in
    if (48 <=? d) && (d <=? 57) then digitsVal (10 * a + Z.of_nat (d - 48)) s' else a
  end.
Definition inLong (z : Z) : bool := ((- 2 ^ 63 <=? z) && (z <? 2 ^ 63))%Z.
Definition charsToLong0 (s : text) : res Z :=
  let z := match s with
           | [] => 0%Z
           | c :: s' => if ceq c "-"%char then (- digitsVal 0 s')%Z
                        else if ceq c "+"%char then digitsVal 0 s' else digitsVal 0 s
           end in
  if inLong z then Ok z else UB.
