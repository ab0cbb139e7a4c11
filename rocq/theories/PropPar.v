(** Properties C16 and C18: parallel append buffers and atomic updates. *)
From Verif Require Import Base SplitModel ParBufModel ParBufProofs AtomicsModel AtomicsProofs.

(** C16: buffers created with positive sizes accept any number of appended
    values without leaving their blocks, and collecting them gives all values,
    buffer after buffer, in order, whatever the order of the parallel copies.
    Elements are at least as large as a pointer. *)
Theorem C16_append_buffer_exact :
  forall T szT (inits : list nat) (vss : list (list T)),
  8 <= szT -> length inits = length vss -> (forall n, In n inits -> 1 <= n) ->
  exists bufs tot ws,
    mapM (fun p => pushAll szT (create T (fst p)) (snd p)) (combine inits vss) = Ok bufs /\
    collectWrites bufs = Ok (tot, ws) /\
    forall ws', Permutation ws' ws -> collect tot ws' = Ok (map Some (concat vss)).
Proof. exact (fun T szT inits vss H => @parbuf_correct T szT H inits vss). Qed.
Print Assumptions C16_append_buffer_exact.

Example C16_example :
  exists bufs tot ws,
    mapM (fun p => pushAll 16 (create nat (fst p)) (snd p))
         (combine [1; 2] [[1;2;3;4;5;6;7;8]; [9;10]]) = Ok bufs /\
    collectWrites bufs = Ok (tot, ws) /\ tot = 10 /\
    collect tot (rev ws) = Ok (map Some [1;2;3;4;5;6;7;8;9;10]).
Proof. do 3 eexists. do 3 (split; [vm_compute; reflexivity|]). vm_compute; reflexivity. Qed.

(** Initial size 0, which the library requests when there are more workers than
    points, makes the first append write outside the block. *)
Theorem C16_initial_size_zero_refuted :
  forall T szT (v : T), push szT (create T 0) v = UB.
Proof. exact push_init0. Qed.
Print Assumptions C16_initial_size_zero_refuted.

(** With elements smaller than a pointer the parent array is allocated too
    small: appending 1024 one-byte values overruns it. *)
Theorem C16_small_elements_refuted :
  exists vs : list bool, pushAll 1 (create bool 1) vs = UB.
Proof. exists (repeat true (Nat.pow 2 10)). vm_compute. reflexivity. Qed.
Print Assumptions C16_small_elements_refuted.

(** C18: n concurrent calls of a compare-and-swap loop return, and leave the
    cell, as if they had run one after the other in some order; for every
    schedule of loads and swaps. *)
Theorem C18_linearizable :
  forall V (veq : V -> V -> bool), (forall x y, veq x y = true <-> x = y) ->
  forall B Ret (cond : B -> V -> bool) (new : B -> V -> V) (retT retF : B -> V -> Ret)
         v0 args sched rs,
  results (run veq cond new retT retF v0 args sched) rs ->
  exists order, Permutation order (seq 0 (length args)) /\
    fst (seqrun cond new retT retF args order v0) = cell (run veq cond new retT retF v0 args sched) /\
    Permutation (snd (seqrun cond new retT retF args order v0)) (combine (seq 0 (length args)) rs).
Proof.
  exact (fun V veq H B Ret cond new retT retF v0 args sched rs =>
    @linearizable V veq H B Ret cond new retT retF v0 args sched rs).
Qed.
Print Assumptions C18_linearizable.

(** All calls return once every thread has been scheduled 3n+2 times. *)
Theorem C18_calls_return :
  forall V (veq : V -> V -> bool), (forall x y, veq x y = true <-> x = y) ->
  forall B Ret (cond : B -> V -> bool) (new : B -> V -> V) (retT retF : B -> V -> Ret)
         v0 args sched,
  (forall i, i < length args -> 3 * length args + 2 <= count_occ Nat.eq_dec sched i) ->
  exists rs, results (run veq cond new retT retF v0 args sched) rs.
Proof.
  exact (fun V veq H B Ret cond new retT retF v0 args sched =>
    @terminates V veq H B Ret cond new retT retF v0 args sched).
Qed.
Print Assumptions C18_calls_return.

(** write_min ends with a minimum of the initial value and all arguments. *)
Theorem C18_write_min :
  forall V (veq less : V -> V -> bool) (ok : V -> Prop),
  (forall x y, veq x y = true <-> x = y) ->
  (forall x, ok x -> less x x = false) ->
  (forall x y z, ok x -> ok y -> ok z -> less x y = true -> less y z = true -> less x z = true) ->
  (forall x y z, ok x -> ok y -> ok z -> less x z = true -> less x y = true \/ less y z = true) ->
  forall v0 args sched rs, ok v0 -> (forall b, In b args -> ok b) ->
    results (wmin_run veq less v0 args sched) rs ->
    let v := cell (wmin_run veq less v0 args sched) in
    In v (v0 :: args) /\ (forall b, In b (v0 :: args) -> less b v = false).
Proof.
  exact (fun V veq less ok H1 H2 H3 H4 v0 args sched rs =>
    @write_min_final V veq H1 less ok H2 H3 H4 v0 args sched rs).
Qed.
Print Assumptions C18_write_min.

Theorem C18_write_max :
  forall V (veq less : V -> V -> bool) (ok : V -> Prop),
  (forall x y, veq x y = true <-> x = y) ->
  (forall x, ok x -> less x x = false) ->
  (forall x y z, ok x -> ok y -> ok z -> less x y = true -> less y z = true -> less x z = true) ->
  (forall x y z, ok x -> ok y -> ok z -> less x z = true -> less x y = true \/ less y z = true) ->
  forall v0 args sched rs, ok v0 -> (forall b, In b args -> ok b) ->
    results (wmax_run veq less v0 args sched) rs ->
    let v := cell (wmax_run veq less v0 args sched) in
    In v (v0 :: args) /\ (forall b, In b (v0 :: args) -> less v b = false).
Proof. exact write_max_final. Qed.
Print Assumptions C18_write_max.

(** write_add and fetch_and_add: no update is lost (for an addition that does
    not depend on the order, as on integers). *)
Theorem C18_write_add :
  forall V (veq : V -> V -> bool), (forall x y, veq x y = true <-> x = y) ->
  forall add : V -> V -> V, (forall a b c, add (add a b) c = add (add a c) b) ->
  forall v0 args sched rs, results (wadd_run veq add v0 args sched) rs ->
  cell (wadd_run veq add v0 args sched) = fold_left add args v0.
Proof.
  exact (fun V veq H add Hc v0 args sched rs =>
    @add_final V veq H add Hc unit (fun _ _ => tt) (fun _ _ => tt) v0 args sched rs).
Qed.
Print Assumptions C18_write_add.

Theorem C18_fetch_and_add :
  forall V (veq : V -> V -> bool), (forall x y, veq x y = true <-> x = y) ->
  forall add : V -> V -> V, (forall a b c, add (add a b) c = add (add a c) b) ->
  forall v0 args sched rs, results (fadd_run veq add v0 args sched) rs ->
  cell (fadd_run veq add v0 args sched) = fold_left add args v0.
Proof.
  exact (fun V veq H add Hc v0 args sched rs =>
    @add_final V veq H add Hc V (fun _ c => c) (fun _ c => c) v0 args sched rs).
Qed.
Print Assumptions C18_fetch_and_add.

(** An interleaving in which thread 0's swap fails once and is retried. *)
Example C18_example :
  let st := wmin_run Nat.eqb Nat.ltb 9 [3; 5; 7] [0; 1; 1; 0; 0; 0; 2] in
  cell st = 3 /\ results st [true; true; false].
Proof. vm_compute. auto. Qed.
Example C18_example_add :
  let st := fadd_run Nat.eqb Nat.add 10 [1; 2; 3] [0; 1; 2; 2; 1; 1; 1; 0; 0; 0] in
  cell st = 16 /\ results st [15; 13; 10].
Proof. vm_compute. auto. Qed.
