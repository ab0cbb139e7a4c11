(** What a graph file holds, independently of the code: decimal numbers and lines. *)
From Coq Require Import Ascii String NArith List.
Import ListNotations.
Open Scope list_scope.

(** the characters '0'..'9', and the value of a text of them *)
Definition isDigit (c : ascii) : Prop := (48 <= nat_of_ascii c <= 57)%nat.
Definition value (s : list ascii) : N := fold_left (fun a c => (10 * a + N.of_nat (nat_of_ascii c - 48))%N) s 0%N.
(** [s] is [n] in decimal, without a leading zero *)
Definition decimal (n : N) (s : list ascii) : Prop :=
  s <> [] /\ (forall c, In c s -> isDigit c) /\ value s = n /\ (hd "0"%char s = "0"%char -> s = ["0"%char]).
Definition blank : ascii := " "%char.
Definition newline : ascii := ascii_of_nat 10.
Definition edgeLine (e : N * N) (l : list ascii) : Prop :=
  exists su sv, decimal (fst e) su /\ decimal (snd e) sv /\ l = su ++ blank :: sv ++ [newline].
Definition wghLine (e : N * N * list ascii) (l : list ascii) : Prop :=
  exists su sv, decimal (fst (fst e)) su /\ decimal (snd (fst e)) sv /\ l = su ++ blank :: sv ++ blank :: snd e ++ [newline].
Definition word64 (n : N) : Prop := (n < 2 ^ 64)%N.
