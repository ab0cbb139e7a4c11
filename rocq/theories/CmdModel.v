(** The command line, include/pargeo/parseCommandLine.h.  Definitions only.
    [argv] is the list of the argc arguments; badArgument (45-48) calls exit(0),
    which is [Throw]. *)
From Coq Require Import ZArith String.
From Verif Require Import Base.
Set Implicit Arguments.
Open Scope string_scope.
Open Scope nat_scope.

Section Cmd.
  Variable argv : list string.
  Definition argc : nat := length argv.
  (** argv[i]; argv[argc] is a null pointer, used as a string by the callers *)
  Definition arg (i : Z) : res string :=
    if (i <? 0)%Z then UB else match nth_error argv (Z.to_nat i) with Some s => Ok s | None => UB end.

  (** 52-55 getArgument *)
  Definition getArgument (i : Z) : res string :=
    if (Z.of_nat argc <? 2 + i)%Z then Throw else arg (Z.of_nat argc - 1 - i).
  (** 58-61 IOFileNames *)
  Definition IOFileNames : res (string * string) :=
    if argc <? 3 then Throw else a <- arg (Z.of_nat argc - 2) ;; b <- arg (Z.of_nat argc - 1) ;; Ok (a, b).
  (** 63-66 sizeAndFileName: the int of atoi becomes a size_t *)
  Variable atoi : string -> Z.
  Definition sizeAndFileName : res (Z * string) :=
    if argc <? 3 then Throw
    else a <- arg (Z.of_nat argc - 2) ;; b <- arg (Z.of_nat argc - 1) ;; Ok ((atoi a mod 2 ^ 64)%Z, b).

  (** 68-72 getOption *)
  Fixpoint optionLoop (fuel i : nat) (option : string) : res bool :=
    if i <? argc then
      match fuel with
      | 0 => Fuel
      | S f => a <- arg (Z.of_nat i) ;; if String.eqb a option then Ok true else optionLoop f (S i) option
      end
    else Ok false.
  Definition getOption (option : string) : res bool := optionLoop argc 1 option.

  (** the loop of 75-77, 81-83, 87-93, 97-103, 107-115: the argument after the option *)
  Fixpoint valueLoop (fuel i : nat) (option : string) : res (Datatypes.option string) :=
    if i <? argc - 1 then
      match fuel with
      | 0 => Fuel
      | S f => a <- arg (Z.of_nat i) ;;
               if String.eqb a option then v <- arg (Z.of_nat i + 1) ;; Ok (Some v) else valueLoop f (S i) option
      end
    else Ok None.
  (** 74-78, with NULL as [None] *)
  Definition getOptionValue (option : string) : res (Datatypes.option string) := valueLoop argc 1 option.
  (** 80-84 *)
  Definition getOptionString (option default : string) : res string :=
    o <- valueLoop argc 1 option ;; Ok (match o with Some v => v | None => default end).
  (** 86-104 getOptionLongValue, getOptionIntValue; [conv] is atol or atoi *)
  Definition getOptionInt (conv : string -> Z) (option : string) (default : Z) : res Z :=
    o <- valueLoop argc 1 option ;;
    match o with Some v => if (conv v <? 0)%Z then Throw else Ok (conv v) | None => Ok default end.
  (** 106-116 getOptionDoubleValue: sscanf gives EOF, no number (val stays
      uninitialised and is returned), or a number *)
  Inductive scan (T : Type) := SEof | SNone | SNum (x : T).
  Arguments SEof {T}. Arguments SNone {T}.
  Definition getOptionDouble T (sscanf : string -> scan T) (option : string) (default : T) : res T :=
    o <- valueLoop argc 1 option ;;
    match o with
    | Some v => match sscanf v with SEof => Throw | SNone => UB | SNum x => Ok x end
    | None => Ok default
    end.
  (** 36-40: the constructor *)
  Definition commandLine : res unit :=
    a <- getOption "-h"%string ;; if (a : bool) then Throw else b <- getOption "-help"%string ;; if (b : bool) then Throw else Ok tt.
End Cmd.
Arguments SEof {T}. Arguments SNone {T}. Arguments SNum {T} x.
