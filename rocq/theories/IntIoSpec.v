(** What an integer file holds, independently of the code. *)
From Coq Require Import Ascii String NArith ZArith List.
From Verif Require Import GraphIoSpec.
Import ListNotations.
Open Scope list_scope.

(** [s] is [z] in decimal *)
Definition signedDecimal (z : Z) (s : list ascii) : Prop :=
  ((0 <= z)%Z /\ decimal (Z.to_N z) s) \/ ((z < 0)%Z /\ exists s', s = "-"%char :: s' /\ decimal (Z.to_N (- z)) s').
(** blank, tab, line feed, carriage return, comma, semicolon, NUL *)
Definition separator (c : ascii) : Prop := In (nat_of_ascii c) [32; 9; 10; 13; 44; 59; 0].
(** [s] is the list of words [ws], with non-empty separators between them *)
Inductive layout : list (list ascii) -> list ascii -> Prop :=
| lay_nil s : (forall c, In c s -> separator c) -> layout [] s
| lay_last pre w : (forall c, In c pre -> separator c) -> w <> [] -> (forall c, In c w -> ~ separator c) -> layout [w] (pre ++ w)
| lay_word pre w c ws s : (forall c, In c pre -> separator c) -> w <> [] -> (forall c, In c w -> ~ separator c) ->
    separator c -> layout ws s -> layout (w :: ws) (pre ++ w ++ c :: s).
