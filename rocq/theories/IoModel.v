(** Point files: include/pargeo/IO.h and include/pargeo/pointIO.h.
    Definitions only.  A text is a list of characters; a numeric field is the
    text [sprintf] produces for it. *)
From Coq Require Import Ascii String.
From Verif Require Import Base Sched.
Set Implicit Arguments.
Open Scope list_scope.
Open Scope nat_scope.

Notation text := (list ascii).
Definition txt (s : string) : text := list_ascii_of_string s.
Definition NUL : ascii := ascii_of_nat 0.
Definition TAB : ascii := ascii_of_nat 9.
Definition NL : ascii := ascii_of_nat 10.
Definition CR : ascii := ascii_of_nat 13.
Definition SP : ascii := ascii_of_nat 32.
Definition ceq (a b : ascii) : bool := Ascii.eqb a b.
Definition oneOf (l : text) (c : ascii) : bool := existsb (ceq c) l.

(** IO.h 37-77 *)
Definition is_newline := oneOf [CR; NL].
Definition is_delim := oneOf (TAB :: txt ";, ").
Definition is_space (c : ascii) : bool := is_newline c || is_delim c || ceq c NUL.
Definition is_number := oneOf (txt "0123456789.+-e").

(** * Writing *)

(** one assignment to a byte; the buffer must be large enough *)
Notation wr := (nat * ascii)%type.
Definition put (b : text) (w : wr) : res text :=
  if fst w <? length b then Ok (upd (fst w) (snd w) b) else UB.
Fixpoint puts (ws : list wr) (b : text) : res text :=
  match ws with [] => Ok b | w :: ws' => b' <- put b w ;; puts ws' b' end.

(** [sprintf] at address [p] writes the text and a final zero byte. *)
Definition sprintfW (p : nat) (s : text) : list wr := combine (seq p (S (length s))) (s ++ [NUL]).

(** IO.h 118: the width of a double (119: the [sprintf]) *)
Definition fieldW : nat := 18.

(** 137-142 [xToStringLen(point)] *)
Definition ptLen (fields : list text) : nat := length fields * fieldW + length fields - 1.
(** 144-156 [xToString(point)] *)
Fixpoint ptW (p : nat) (fields : list text) : list wr :=
  match fields with
  | [] => []
  | [f] => sprintfW p f
  | f :: rest => sprintfW p f ++ [(p + fieldW, SP)] ++ ptW (p + fieldW + 1) rest
  end.

(** 158-180 [seqToString].  The iterations of the loop 170-173 are threads that
    write byte by byte; [sched] says who acts next. *)
Definition offs (A : list (list text)) (i : nat) : nat := list_sum (map (fun a => ptLen a + 1) (firstn i A)).
Definition loopW (A : list (list text)) (i : nat) : list wr :=
  ptW (offs A i) (nth i A []) ++ [(offs A (S i) - 1, NL)].
Definition w_fin (l : list wr) : bool := match l with [] => true | _ => false end.
Definition w_step (l : list wr) (b : text) : res (list wr * text) :=
  match l with [] => Ok ([], b) | w :: l' => b' <- put b w ;; Ok (l', b') end.
Definition seqToString (sched : list nat) (A : list (list text)) : res text :=
  let n := length A in
  if n =? 0 then UB
  else
    let m := offs A n in
    '(_, b1) <- runT w_step w_fin sched (map (loopW A) (seq 0 (n - 1))) (repeat NUL (m + 1)) ;;
    b2 <- puts (ptW (offs A (n - 1)) (nth (n - 1) A []) ++ [(m - 1, NL); (m, NL)]) b1 ;;
    let c := filter (fun c => negb (ceq c NUL)) b2 in
    if length c =? 0 then UB else Ok (removelast c ++ [NUL]).

(** 182-194 [writeSeqToStream]; [scheds] gives the schedule of the part that
    starts at an offset. *)
Fixpoint writeLoop (fuel bsize offset : nat) (scheds : nat -> list nat) (A : list (list text)) : res text :=
  match fuel with
  | 0 => Fuel
  | S f =>
    if offset <? length A then
      s <- seqToString (scheds offset) (firstn (Nat.min (offset + bsize) (length A) - offset) (skipn offset A)) ;;
      r <- writeLoop f bsize (offset + bsize) scheds A ;;
      Ok (removelast s ++ r)
    else Ok []
  end.

(** 196-210 [writeSeqToFile]: the contents of the file *)
Definition writeSeqToFile bsize scheds (header : text) (A : list (list text)) : res text :=
  if length A =? 0 then UB
  else
    r <- writeLoop (S (length A)) bsize 0 scheds A ;;
    Ok ((if length header =? 0 then [] else header ++ [NL]) ++ r).

(** pointIO.h 32-37; [digit d] is [std::to_string] for one digit. *)
Definition digit (d : nat) : ascii := ascii_of_nat (48 + d).
Definition pbbsHeader (dim : nat) : res text :=
  if (dim <? 2) || (9 <? dim) then Throw
  else Ok (txt "pbbs_sequencePoint" ++ [digit dim] ++ txt "d").

(** * Reading *)

(** IO.h 79-100 [stringToWords]: the string with spaces zeroed, and where the
    words start. *)
Definition zeroed (s : text) : text := map (fun c => if is_space c then NUL else c) s.
Definition wordStart (s : text) (i : nat) : bool :=
  if i =? 0 then negb (ceq (nth 0 s NUL) NUL)
  else negb (ceq (nth i s NUL) NUL) && ceq (nth (i - 1) s NUL) NUL.
Definition stringToWords (s : text) : text * list nat :=
  let z := zeroed s in (z, filter (wordStart z) (seq 0 (length z))).

(** A C string read from an address: it must end before the array does. *)
Fixpoint cstrOf (s : text) : res text :=
  match s with
  | [] => UB
  | c :: s' => if ceq c NUL then Ok [] else r <- cstrOf s' ;; Ok (c :: r)
  end.
Definition cstr (s : text) (p : nat) : res text := cstrOf (skipn p s).

(** pointIO.h 39-44 *)
Definition isGenericHeader (line : text) : bool :=
  existsb (fun c => negb (is_number c) && negb (is_delim c)) line.

Fixpoint mapM {A B} (f : A -> res B) (l : list A) : res (list B) :=
  match l with [] => Ok [] | x :: l' => y <- f x ;; r <- mapM f l' ;; Ok (y :: r) end.

Section Read.
  Variable T : Type.
  Variable atof : text -> T.

  (** 94-104 [parsePoints] *)
  Definition parsePoints (d : nat) (s : text) (W : list nat) : res (list (list T)) :=
    let n := length W / d in
    a <- mapM (fun p => w <- cstr s p ;; Ok (atof w)) (firstn (d * n) W) ;;
    Ok (map (fun i => firstn d (skipn (d * i) a)) (seq 0 n)).

  (** 106-119 [readPointsFromFile] *)
  Definition readPoints (d : nat) (file : text) : res (list (list T)) :=
    let '(s, W) := stringToWords file in
    match W with
    | [] => Throw
    | w0 :: W' => h <- cstr s w0 ;; if isGenericHeader h then parsePoints d s W' else parsePoints d s W
    end.
End Read.

(** 46-59 [countEntry]: [back] of an empty line is undefined. *)
Fixpoint popBack (fuel : nat) (line : text) : res text :=
  match fuel with
  | 0 => Fuel
  | S f =>
    match rev line with
    | [] => UB
    | c :: _ => if is_delim c || is_space c || is_newline c then popBack f (removelast line) else Ok line
    end
  end.
Definition countEntry (line : text) : res nat :=
  l <- popBack (S (length line)) line ;; Ok (length (filter is_delim l) + 1).

(** [getline]: the text before the first end of line, and what follows it *)
Fixpoint getline (s : text) : text * text :=
  match s with
  | [] => ([], [])
  | c :: s' => if ceq c NL then ([], s') else let '(l, r) := getline s' in (c :: l, r)
  end.
(** 61-73 [readHeader] *)
Definition readHeader (file : text) : res nat :=
  let '(l1, rest) := getline file in
  if isGenericHeader l1 then countEntry (fst (getline rest)) else countEntry l1.

(** * [%.11le]: sign, one digit, eleven decimals, exponent of at least two digits *)
Fixpoint digitsN (k m : nat) : text :=   (* the last [k] decimal digits *)
  match k with 0 => [] | S k' => digitsN k' (m / 10) ++ [digit (m mod 10)] end.
Definition fmtExp (e : Z) : text :=
  (if (e <? 0)%Z then txt "-" else txt "+") ++
  (let a := Z.abs_nat e in if a <? 100 then digitsN 2 a else digitsN 3 a).
(** [ds] are the twelve significant digits. *)
Definition fmtLe (neg : bool) (ds : list nat) (e : Z) : text :=
  (if neg then txt "-" else []) ++
  match map digit ds with [] => [] | d :: r => d :: txt "." ++ r end ++
  txt "e" ++ fmtExp e.
