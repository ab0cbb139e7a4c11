(** The rounds of the insertion: the winners of a batch, and the end of the loop. *)
From Coq Require Import Reals Lra List Bool Arith Lia Permutation.
From Verif Require Import Base Num Hull2dModel H2IncModel H2IncGeom H2IncSide H2IncTok H2IncSeg H2IncInv H2IncStep.
From Verif Require H3Model.
Set Implicit Arguments.
Open Scope R_scope.

Lemma nodup_writes (Z : nat -> list nat) (B : list nat) : NoDup B -> (forall i, In i B -> NoDup (Z i)) -> NoDup (writes (map (fun i => (i, Z i)) B)).
Proof.
  unfold writes. induction B as [|i B IH]; intros N H; [constructor|]. cbn. apply NoDup_cons_iff in N. destruct N as (N1 & N2). apply NoDup_app_intro.
  - apply FinFun.Injective_map_NoDup; [intros a b E; injection E; auto|]. apply H. left; auto.
  - apply IH; auto. intros j J. apply H. right; auto.
  - intros (a & b) H1 H2. apply in_map_iff in H1. destruct H1 as (c & E & _). injection E as <- <-. apply in_flat_map in H2. destruct H2 as (y & Hy & H2). apply in_map_iff in Hy. destruct Hy as (j & <- & Hj). cbn in H2. apply in_map_iff in H2. destruct H2 as (d & E & _). injection E as -> _. contradiction.
Qed.
Lemma in_writes (Z : nat -> list nat) (B : list nat) i f : In (i, f) (writes (map (fun i => (i, Z i)) B)) <-> In i B /\ In f (Z i).
Proof.
  unfold writes. rewrite in_flat_map. split.
  - intros (y & Hy & H). apply in_map_iff in Hy. destruct Hy as (j & <- & Hj). cbn in H. apply in_map_iff in H. destruct H as (d & E & Hd). injection E as -> ->. auto.
  - intros (Hi & Hf). exists (i, Z i). split; [apply in_map_iff; eauto|]. cbn. apply in_map_iff. eauto.
Qed.
Lemma filter_lt X (b : X -> bool) l x : In x l -> b x = false -> (length (filter b l) < length l)%nat.
Proof.
  induction l as [|y l IH]; intros [] E.
  - subst. cbn. rewrite E. pose proof (@filter_length_le _ b l). lia.
  - cbn. specialize (IH H E). destruct (b y); cbn; lia.
Qed.
Lemma least (l : list nat) : l <> [] -> exists i, In i l /\ forall j, In j l -> (i <= j)%nat.
Proof.
  induction l as [|a l IH]; [congruence|]. intros _. destruct l as [|b l]; [exists a; split; [left; auto|intros j [<-|[]]; auto]|].
  destruct IH as (i & Hi & M); [discriminate|]. destruct (le_lt_dec a i) as [L|L]; [exists a; split; [left; auto|]|exists i; split; [right; auto|]]; (intros j [<-|J]; [lia|apply M in J; lia]).
Qed.

Section Run.
  Variable V : list p2.
  Variable eps : R.
  Hypothesis eps0 : 0 <= eps.
  Hypothesis sep : forall a b c, In a V -> In b V -> In c V -> 0 < ar a b c -> eps < ar a b c.
  Variable cor : nat -> p2.
  Hypothesis box : forall k q, (k < 4)%nat -> In q V -> boxK k (cor k) (cor (S k)) q.
  Notation pnt := (pnt V). Notation seg := (seg V eps). Notation Inv := (Inv V cor).

  Definition at_work (s : st) (i : nat) (Z : list nat) : Prop := exists f z v e, nth_error (ssee s) i = Some (Some f) /\ In f v /\ seg (sh s) (pnt i) z v e /\ Z = z :: v ++ [e].
  Lemma process_ok s T i Z : Inv (sh s) (ssee s) T -> at_work s i Z -> exists s' T', @process RNum eps V s i = Ok s' /\ Inv (sh s') (ssee s') T' /\ In (sH s') (ring T') /\
    nth_error (ssee s') i = Some None /\ (forall q, nth_error (ssee s) q = Some None -> nth_error (ssee s') q = Some None) /\
    (forall j Z', at_work s j Z' -> (forall g, In g Z -> In g Z' -> False) -> at_work s' j Z').
  Proof.
    destruct s as [h see H]. cbn [sh ssee]. intros I (f & z & v & e & Sf & Hf & Sg & EZ). cbn [sh ssee] in *. pose proof (@see_lt V cor h see T i _ I Sf) as Li.
    destruct (@inv_dec V eps eps0 sep cor h see T i f I Sf) as (k & l1 & v' & l2 & u & w & e' & z' & m & D & Hf').
    assert (Eq : z' :: v' ++ [e'] = z :: v ++ [e]).
    { pose proof (@zone_ok V eps (St h see H) i f z v e Li Sf Sg Hf) as A. pose proof (@zone_ok V eps (St h see H) i f z' v' e' Li Sf (d_seg D) Hf') as B. rewrite A in B. injection B. intros -> ->. reflexivity. }
    injection Eq as Ez Ev. apply app_inj_tail in Ev. destruct Ev as (Ev & Ee). subst z' v' e'.
    assert (Hq : forall q, In q (seenBy h v) -> exists g, In g v /\ nth_error see q = Some (Some g)).
    { intros q Hq. apply in_seenBy in Hq. destruct Hq as (g & Hg & Hq). exists g. split; auto.
      assert (Rg : In g (ring T)) by (rewrite (d_ring D), !in_app_iff; auto). destruct (v_fac I g Rg) as (gx & Lg & _ & Q). apply Q. rewrite (facAt_live Lg) in Hq. auto. }
    destruct (@process_heap V eps eps0 sep h see H i f z v e Li (v_len I) Sf Sg Hf) as (x & y & h' & see' & Lx & Ly & P & G).
    { destruct (v_see I _ Sf) as (k' & fx & _ & _ & Lf & Hi & _). rewrite (facAt_live Lf). auto. }
    { intros q Q. destruct (Hq q Q) as (g & _ & Sq). apply (@see_lt V cor h see T q _ I Sq). }
    pose proof (@step_inv V eps cor box h see T i f k l1 v l2 u w e z m x y h' see' I Sf D Lx Ly G) as I'.
    do 2 eexists. split; [exact P|]. cbn [sh ssee sH]. split; [exact I'|]. split; [|split; [|split]].
    - rewrite (d_set D), !in_app_iff. cbn [In]. tauto.
    - apply (t_self G).
    - intros q Sq. rewrite (t_keep G); auto; [apply nth_error_Some; congruence|]. intros Q. destruct (Hq q Q) as (g & _ & Sq'). congruence.
    - intros j Z' (fj & zj & vj & ej & Sj & Hj & Sgj & EZj) Dis. subst Z Z'. exists fj, zj, vj, ej. cbn [sh ssee] in *. split; [|split; [auto|split; [|auto]]].
      + rewrite (t_keep G); auto; [apply nth_error_Some; congruence|]. intros Q. destruct (Hq j Q) as (g & Hg & Sq'). rewrite Sj in Sq'. injection Sq' as <-. apply (Dis fj); right; apply in_app_iff; auto.
      + apply (@seg_frame V eps h h' _ _ _ _ Sgj). intros g Hg. apply (t_old G).
        * destruct (seg_live Sgj Hg) as (gx & Lg). apply (live_lt Lg).
        * intros X. apply (Dis g); auto.
  Qed.
  Lemma process_all : forall todo s T (Z : nat -> list nat), Inv (sh s) (ssee s) T -> In (sH s) (ring T) -> NoDup todo -> (forall i, In i todo -> at_work s i (Z i)) ->
    (forall i j g, In i todo -> In j todo -> In g (Z i) -> In g (Z j) -> i = j) ->
    exists s' T', H3Model.foldR (@process RNum eps V) todo s = Ok s' /\ Inv (sh s') (ssee s') T' /\ In (sH s') (ring T') /\
      (forall q, nth_error (ssee s) q = Some None -> nth_error (ssee s') q = Some None) /\ forall i, In i todo -> nth_error (ssee s') i = Some None.
  Proof.
    induction todo as [|i todo IH]; intros s T Z I Hs ND AW Dis; [exists s, T; split; [reflexivity|]; split; [exact I|]; split; [exact Hs|]; split; [auto|intros i []]|]. apply NoDup_cons_iff in ND. destruct ND as (N1 & N2).
    destruct (@process_ok s T i (Z i) I (AW i (or_introl eq_refl))) as (s1 & T1 & P & I1 & H1 & E1 & K1 & F1).
    destruct (IH s1 T1 Z) as (s2 & T2 & P2 & I2 & H2 & K2 & E2); auto.
    - intros j J. apply F1; [apply AW; right; auto|]. intros g G1 G2. apply N1. rewrite (Dis i j g); auto; [left; auto|right; auto].
    - intros a b g A B. apply Dis; right; auto.
    - exists s2, T2. cbn [H3Model.foldR]. rewrite P. cbn [bind]. split; auto. split; auto. split; auto. split; auto. intros j [<-|J]; auto.
  Qed.

  Variable shuf : nat -> forall X, list X -> list X.
  Hypothesis shuf_ok : forall k X (l : list X), Permutation l (shuf k l).

  Lemma alive_some s i : alive s i = true <-> exists f, nth_error (ssee s) i = Some (Some f).
  Proof. unfold alive. destruct (nth_error (ssee s) i) as [[f|]|]; split; intros H; eauto; try discriminate; destruct H; discriminate. Qed.
  Lemma round_ok k batch s T mapping : Inv (sh s) (ssee s) T -> In (sH s) (ring T) -> (0 < batch)%nat -> mapping <> [] -> NoDup mapping -> (forall i, In i mapping <-> alive s i = true) ->
    exists s' T', @round RNum eps V shuf k batch s mapping = Ok (s', filter (alive s') mapping) /\ Inv (sh s') (ssee s') T' /\ In (sH s') (ring T') /\
      (forall i, In i (filter (alive s') mapping) <-> alive s' i = true) /\ (length (filter (alive s') mapping) < length mapping)%nat.
  Proof.
    intros I Hs B0 NE ND AL. set (B := firstn (Nat.min batch (length mapping)) mapping).
    assert (NEB : B <> []) by (unfold B; destruct mapping as [|a l]; [congruence|]; destruct batch; [lia|]; cbn; discriminate).
    assert (BM : forall i, In i B -> In i mapping) by (intros i Hi; rewrite <- (firstn_skipn (Nat.min batch (length mapping)) mapping); apply in_app_iff; auto).
    assert (NDB : NoDup B). { rewrite <- (firstn_skipn (Nat.min batch (length mapping)) mapping) in ND. apply NoDup_app_elim in ND. apply ND. }
    set (Z := fun i => match @zone RNum eps V s i with Ok (_, z) => z | _ => [] end).
    assert (AW : forall i, In i B -> at_work s i (Z i) /\ @zone RNum eps V s i = Ok (i, Z i)).
    { intros i Hi. apply BM, AL, alive_some in Hi. destruct Hi as (f & Sf). pose proof (@see_lt V cor _ _ T i _ I Sf) as Li.
      destruct (@inv_dec V eps eps0 sep cor _ _ T i f I Sf) as (k' & l1 & v & l2 & u & w & e & z & m & D & Hf).
      pose proof (@zone_ok V eps s i f z v e Li Sf (d_seg D) Hf) as E. unfold Z. rewrite E. split; auto. exists f, z, v, e. split; auto. split; auto. split; auto. apply (d_seg D). }
    set (zs := map (fun i => (i, Z i)) B).
    assert (Ezs : mapR (@zone RNum eps V s) B = Ok zs) by (apply mapR_fun; intros i Hi; apply AW; auto).
    set (W := writes zs).
    assert (InW : forall i f, In (i, f) W <-> In i B /\ In f (Z i)) by (intros i f; apply in_writes).
    destruct (@phases (sh s) W (shuf (3 * k) W) (shuf (3 * k + 1) W)) as (t & bad & R1 & R2 & R3 & R4 & R5).
    { apply (v_tok I). }
    { intros (i & f) Hw. apply InW in Hw. destruct Hw as (Hi & Hf). destruct (AW i Hi) as ((f0 & z & v & e & _ & _ & Sg & EZ) & _). rewrite EZ in Hf. apply (seg_live Sg Hf). }
    { apply nodup_writes; auto. intros i Hi. destruct (AW i Hi) as ((f0 & z & v & e & _ & _ & Sg & EZ) & _). rewrite EZ. apply (g_nd Sg). }
    { apply shuf_ok. } { apply shuf_ok. }
    set (succ := map fst (filter (fun z => negb (length (snd z) =? 0)%nat && negb (existsb (Nat.eqb (fst z)) bad)) zs)).
    assert (InS : forall i, In i succ <-> In i B /\ forall f, In f (Z i) -> t f = Some i).
    { intros i. unfold succ. rewrite in_map_iff. split.
      - intros ((a & l) & E & H). cbn in E. subst a. apply filter_In in H. destruct H as (H & C). apply in_map_iff in H. destruct H as (j & E & Hj). injection E as -> <-. cbn [fst snd] in C. apply andb_true_iff in C. destruct C as (_ & C). split; auto.
        intros f Hf. destruct (t f) as [m|] eqn:Et; [destruct (Nat.eq_dec m i) as [->|N]; auto|]; exfalso; apply negb_true_iff in C; rewrite (proj2 (existsb_nat i bad)) in C; try discriminate; apply R3; exists f; rewrite InW, Et; split; auto; congruence.
      - intros (Hi & Ht). exists (i, Z i). split; auto. apply filter_In. split; [apply in_map_iff; eauto|]. cbn [fst snd]. apply andb_true_iff. split.
        + destruct (AW i Hi) as ((f0 & z & v & e & _ & _ & _ & EZ) & _). rewrite EZ. reflexivity.
        + apply negb_true_iff. destruct (existsb (Nat.eqb i) bad) eqn:E; auto. apply existsb_nat, R3 in E. destruct E as (f & Hf & N). apply InW in Hf. exfalso. apply N, Ht. apply Hf. }
    assert (NDS : NoDup succ).
    { unfold succ. assert (X : forall (c : nat * list nat -> bool) l, NoDup l -> NoDup (map fst (filter c (map (fun i => (i, Z i)) l)))).
      { intros c l. induction l as [|a l IH]; intros N; [constructor|]. apply NoDup_cons_iff in N. destruct N as (N & N'). cbn. destruct (c (a, Z a)); auto. cbn. constructor; auto. intros X. apply N. apply in_map_iff in X. destruct X as ((b & y) & E & X). cbn in E. subst b. apply filter_In in X. destruct X as (X & _). apply in_map_iff in X. destruct X as (b & E & X). injection E as -> _. auto. }
      apply X; auto. }
    pose proof (shuf_ok (3 * k + 2) succ) as Ps.
    destruct s as [h see H]. cbn [sh ssee sH] in *.
    destruct (@process_all (shuf (3 * k + 2) succ) (St h see H) T Z) as (s' & T' & P & I' & H' & K & E); auto.
    { eapply Permutation_NoDup; eauto. }
    { intros i Hi. apply AW. apply (Permutation_in _ (Permutation_sym Ps)), InS in Hi. apply Hi. }
    { intros i j g Hi Hj Gi Gj. apply (Permutation_in _ (Permutation_sym Ps)), InS in Hi. apply (Permutation_in _ (Permutation_sym Ps)), InS in Hj. pose proof (proj2 Hi g Gi) as A. pose proof (proj2 Hj g Gj) as A'. congruence. }
    exists s', T'. split.
    - unfold round. etransitivity; [apply (f_equal (fun r => bind r _)); exact Ezs|]. cbn [bind sh ssee sH]. fold W. rewrite R1. cbn [bind]. rewrite R2. cbn [bind]. fold succ. rewrite P. reflexivity.
    - split; auto. split; auto. split.
      + intros i. rewrite filter_In. split; [tauto|]. intros A. split; auto. apply AL. apply alive_some. cbn [ssee]. apply alive_some in A. destruct A as (f & A).
        destruct (nth_error see i) as [[f'|]|] eqn:Si; eauto.
        * rewrite (K i Si) in A. discriminate.
        * exfalso. apply nth_error_None in Si. assert (L : (i < length (ssee s'))%nat) by (apply nth_error_Some; congruence). rewrite (v_len I') in L. rewrite (v_len I) in Si. lia.
      + destruct (least NEB) as (i & Hi & M). apply (filter_lt (alive s') mapping i); auto.
        assert (Is : In i succ). { apply InS. split; auto. intros f Hf. destruct (R5 i f) as (m & Em); [apply InW; auto|]. destruct (R4 f m Em) as (Wm & Lm). rewrite Em. f_equal. apply Nat.le_antisymm; [apply Lm, InW; auto|]. apply M. apply InW in Wm. apply Wm. }
        unfold alive. rewrite (E i); auto. apply (Permutation_in _ Ps). auto.
  Qed.
  Theorem loop_ok : forall fuel k batch s T mapping, Inv (sh s) (ssee s) T -> In (sH s) (ring T) -> (0 < batch)%nat -> NoDup mapping -> (forall i, In i mapping <-> alive s i = true) -> (length mapping <= fuel)%nat ->
    exists s' T', @loop RNum eps V shuf fuel k batch s mapping = Ok s' /\ Inv (sh s') (ssee s') T' /\ In (sH s') (ring T') /\ forall q, (q < length V)%nat -> nth_error (ssee s') q = Some None.
  Proof.
    induction fuel as [|fuel IH]; intros k batch s T mapping I Hs B0 ND AL L.
    - destruct mapping as [|a l]; [|cbn in L; lia]. exists s, T. cbn [loop]. split; auto. split; auto. split; auto.
      intros q Q. rewrite <- (v_len I) in Q. destruct (nth_error (ssee s) q) as [[f|]|] eqn:E; auto; [exfalso; assert (X : In q []) by (apply AL, alive_some; eauto); destruct X|]. apply nth_error_None in E. lia.
    - destruct mapping as [|a l].
      + exists s, T. cbn [loop]. split; auto. split; auto. split; auto.
        intros q Q. rewrite <- (v_len I) in Q. destruct (nth_error (ssee s) q) as [[f|]|] eqn:E; auto; [exfalso; assert (X : In q []) by (apply AL, alive_some; eauto); destruct X|]. apply nth_error_None in E. lia.
      + destruct (@round_ok k batch s T (a :: l) I Hs B0) as (s1 & T1 & R & I1 & H1 & A1 & L1); auto; [discriminate|]. cbn [loop]. rewrite R. cbn [bind]. apply (IH _ _ _ T1); auto.
        * apply NoDup_filter. auto.
        * cbn [length] in *. lia.
  Qed.
End Run.
