(** C98: the command line. *)
From Coq Require Import ZArith String List Lia.
From Verif Require Import Base CmdModel.
Set Implicit Arguments.
Open Scope string_scope.
Open Scope nat_scope.

(** The value of an option: the argument after its first occurrence among the
    arguments except the program and the last one. *)
Definition optionAt (argv : list string) (o : string) (i : nat) : Prop :=
  1 <= i /\ i + 1 < length argv /\ nth_error argv i = Some o /\ forall j, 1 <= j < i -> nth_error argv j <> Some o.
Definition noOption (argv : list string) (o : string) : Prop :=
  forall i, 1 <= i -> i + 1 < length argv -> nth_error argv i <> Some o.

Lemma arg_ok argv i s : nth_error argv i = Some s -> arg argv (Z.of_nat i) = Ok s.
Proof. intros E. unfold arg. destruct (Z.ltb_spec (Z.of_nat i) 0); [lia|]. rewrite Nat2Z.id, E. auto. Qed.
Lemma nth_ex A (l : list A) i : i < length l -> exists s, nth_error l i = Some s.
Proof. intros H. destruct (nth_error l i) eqn:E; eauto. apply nth_error_None in E. lia. Qed.

Lemma valueLoop_ok argv o : forall fuel i, length argv <= fuel + i -> 1 <= i ->
  (forall j, 1 <= j < i -> nth_error argv j <> Some o) ->
  (exists k v, optionAt argv o k /\ nth_error argv (k + 1) = Some v /\ valueLoop argv fuel i o = Ok (Some v)) \/
  (noOption argv o /\ valueLoop argv fuel i o = Ok None).
Proof.
  induction fuel as [|f IH]; intros i Hf Hi HB; cbn [valueLoop]; unfold argc; destruct (Nat.ltb_spec i (length argv - 1)) as [L|L].
  - lia.
  - right. split; auto. intros j J1 J2. apply HB. lia.
  - destruct (@nth_ex _ argv i) as (s & E); [lia|]. rewrite (arg_ok _ _ E). cbn [bind]. destruct (String.eqb_spec s o) as [->|Ne].
    + left. destruct (@nth_ex _ argv (i + 1)) as (v & Ev); [lia|]. exists i, v. split; [repeat split; auto; lia|]. split; auto.
      replace (Z.of_nat i + 1)%Z with (Z.of_nat (i + 1)) by lia. rewrite (arg_ok _ _ Ev). reflexivity.
    + apply IH; try lia. intros j Hj. destruct (Nat.eq_dec j i) as [->|]; [congruence|apply HB; lia].
  - right. split; auto. intros j J1 J2. apply HB. lia.
Qed.
Lemma optionLoop_ok argv o : forall fuel i, length argv <= fuel + i -> 1 <= i -> (forall j, 1 <= j < i -> nth_error argv j <> Some o) ->
  exists b, optionLoop argv fuel i o = Ok b /\ (b = true <-> exists k, 1 <= k /\ nth_error argv k = Some o).
Proof.
  induction fuel as [|f IH]; intros i Hf Hi HB; cbn [optionLoop]; unfold argc; destruct (Nat.ltb_spec i (length argv)) as [L|L].
  - lia.
  - exists false. split; auto. split; [discriminate|]. intros (k & K1 & K2). exfalso.
    assert (k < length argv) by (apply nth_error_Some; congruence). apply (HB k); auto; lia.
  - destruct (@nth_ex _ argv i L) as (s & E). rewrite (arg_ok _ _ E). cbn [bind]. destruct (String.eqb_spec s o) as [->|Ne].
    + exists true. split; auto. split; auto. intros _. eauto.
    + apply IH; try lia. intros j Hj. destruct (Nat.eq_dec j i) as [->|]; [congruence|apply HB; lia].
  - exists false. split; auto. split; [discriminate|]. intros (k & K1 & K2). exfalso.
    assert (k < length argv) by (apply nth_error_Some; congruence). apply (HB k); auto; lia.
Qed.

(** C98: options. *)
Theorem C98_option : forall argv o, exists b, getOption argv o = Ok b /\ (b = true <-> In o (tl argv)).
Proof.
  intros argv o. destruct (@optionLoop_ok argv o (argc argv) 1) as (b & E & H); auto; [unfold argc; lia|intros; lia|].
  exists b. split; [exact E|]. rewrite H. destruct argv as [|p l]; cbn [tl].
  - split; [intros (k & _ & K); destruct k; discriminate|intros []].
  - split.
    + intros (k & K1 & K2). destruct k; [lia|]. eapply nth_error_In; eauto.
    + intros I. apply In_nth_error in I. destruct I as (k & K). exists (S k). split; [lia|exact K].
Qed.
Print Assumptions C98_option.

(** C98: option values, as strings and as numbers: the value found, or the
    default when there is none; negative integers end the program. *)
Theorem C98_value : forall argv o,
  (exists k v, optionAt argv o k /\ nth_error argv (k + 1) = Some v /\ getOptionValue argv o = Ok (Some v) /\
     (forall d, getOptionString argv o d = Ok v) /\
     (forall conv d, ((0 <= conv v)%Z -> getOptionInt argv conv o d = Ok (conv v)) /\ ((conv v < 0)%Z -> getOptionInt argv conv o d = Throw)) /\
     (forall T (sscanf : string -> scan T) d,
        (forall x, sscanf v = SNum x -> getOptionDouble argv sscanf o d = Ok x) /\ (sscanf v = SEof -> getOptionDouble argv sscanf o d = Throw))) \/
  (noOption argv o /\ getOptionValue argv o = Ok None /\ (forall d, getOptionString argv o d = Ok d) /\
     (forall conv d, getOptionInt argv conv o d = Ok d) /\ forall T (sscanf : string -> scan T) d, getOptionDouble argv sscanf o d = Ok d).
Proof.
  intros argv o. destruct (@valueLoop_ok argv o (argc argv) 1) as [(k & v & H1 & H2 & E)|[H E]]; [unfold argc; lia|auto|intros; lia|left|right].
  - exists k, v. split; auto. split; auto. split; [exact E|]. split; [|split].
    + intros d. unfold getOptionString. rewrite E. reflexivity.
    + intros conv d. unfold getOptionInt. rewrite E. cbn [bind]. split; intros H; destruct (Z.ltb_spec (conv v) 0); auto; lia.
    + intros T sc d. unfold getOptionDouble. rewrite E. cbn [bind]. split; [intros x ->|intros ->]; reflexivity.
  - split; auto. split; [exact E|]. split; [|split]; intros; unfold getOptionString, getOptionInt, getOptionDouble; rewrite E; reflexivity.
Qed.
Print Assumptions C98_value.

(** C98: arguments from the end, never the program itself; file names. *)
Theorem C98_argument : forall argv i, (0 <= i)%Z ->
  ((2 + i <= Z.of_nat (length argv))%Z -> exists s, getArgument argv i = Ok s /\ nth_error (rev (tl argv)) (Z.to_nat i) = Some s) /\
  ((Z.of_nat (length argv) < 2 + i)%Z -> getArgument argv i = Throw).
Proof.
  intros argv i Hi. unfold getArgument, argc. destruct (Z.ltb_spec (Z.of_nat (length argv)) (2 + i)) as [L|L]; split; intros H; auto; try lia.
  destruct argv as [|p l]; [cbn [length] in L; lia|]. cbn [tl]. cbn [length] in *.
  destruct (@nth_ex _ l (length l - 1 - Z.to_nat i)) as (s & E); [lia|]. exists s. split.
  - replace (Z.of_nat (S (length l)) - 1 - i)%Z with (Z.of_nat (S (length l - 1 - Z.to_nat i))) by lia. apply arg_ok. exact E.
  - rewrite (nth_error_nth' _ "") by (rewrite rev_length; lia). f_equal. rewrite rev_nth by lia.
    replace (length l - S (Z.to_nat i)) with (length l - 1 - Z.to_nat i) by lia. apply nth_error_nth. auto.
Qed.
Print Assumptions C98_argument.
Theorem C98_files : forall argv, (length argv < 3 -> IOFileNames argv = Throw) /\
  forall pre a b, argv = (pre ++ [a; b])%list -> pre <> [] -> IOFileNames argv = Ok (a, b).
Proof.
  intros argv. unfold IOFileNames, argc. split.
  - intros H. destruct (Nat.ltb_spec (length argv) 3); auto; lia.
  - intros pre a b -> Hp. rewrite app_length. cbn [length]. assert (0 < length pre) by (destruct pre; [congruence|cbn; lia]).
    destruct (Nat.ltb_spec (length pre + 2) 3); [lia|].
    replace (Z.of_nat (length pre + 2) - 2)%Z with (Z.of_nat (length pre)) by lia.
    replace (Z.of_nat (length pre + 2) - 1)%Z with (Z.of_nat (length pre + 1)) by lia.
    rewrite (@arg_ok _ _ a) by (rewrite nth_error_app2 by lia; rewrite Nat.sub_diag; reflexivity).
    rewrite (@arg_ok _ _ b) by (rewrite nth_error_app2 by lia; replace (length pre + 1 - length pre) with 1 by lia; reflexivity). reflexivity.
Qed.
Print Assumptions C98_files.

Definition line : list string := ["knn"; "-k"; "5"; "-o"; "out"; "-k"; "7"; "points"].
Example C98_example : getOption line "-o" = Ok true /\ getOption line "knn" = Ok false /\ getOptionValue line "-k" = Ok (Some "5") /\
  getOptionValue line "points" = Ok None /\ getArgument line 0 = Ok "points" /\ getArgument line 7 = Throw /\
  IOFileNames line = Ok ("7", "points") /\ commandLine line = Ok tt /\ commandLine ["knn"; "-help"] = Throw.
Proof. vm_compute. repeat split; reflexivity. Qed.

(** C98 refuted for a value that is no number: the uninitialised variable is returned. *)
Theorem C98_double_refuted : forall T (sscanf : string -> scan T) d v, sscanf v = SNone ->
  getOptionDouble ["prog"; "-eps"; v] sscanf "-eps" d = UB.
Proof. intros T sc d v H. unfold getOptionDouble.
  change (valueLoop ["prog"; "-eps"; v] (argc ["prog"; "-eps"; v]) 1 "-eps") with (Ok (Some v)). cbn [bind]. rewrite H. reflexivity. Qed.
Print Assumptions C98_double_refuted.
(** C98 refuted: a negative size becomes a huge one. *)
Theorem C98_size_refuted : forall atoi a, atoi a = (-5)%Z -> sizeAndFileName ["gen"; a; "file"] atoi = Ok ((2 ^ 64 - 5)%Z, "file").
Proof. intros atoi a H.
  change (Ok ((atoi a mod 2 ^ 64)%Z, "file") = Ok ((2 ^ 64 - 5)%Z, "file")). rewrite H. reflexivity. Qed.
Print Assumptions C98_size_refuted.
(** C98 refuted: the input file is also taken as the value of an option before it. *)
Theorem C98_swallow_refuted : forall o f, getOptionValue ["prog"; o; f] o = Ok (Some f) /\ getArgument ["prog"; o; f] 0 = Ok f.
Proof. intros o f. split; [|reflexivity]. 
  change ((if String.eqb o o then Ok (Some f) else Ok None) = Ok (Some f)). rewrite String.eqb_refl. reflexivity. Qed.
Print Assumptions C98_swallow_refuted.
