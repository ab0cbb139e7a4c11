(** Union-find: representatives, path compression under concurrency, link. *)
From Verif Require Import Base Sched UfModel.
Set Implicit Arguments.

(** [rep P i r]: the chain of parents from i ends in the root r. *)
Inductive rep (P : parents) : nat -> nat -> Prop :=
| rep_root r : P r = None -> rep P r r
| rep_step i p r : P i = Some p -> rep P p r -> rep P i r.

(** No chain leaves the vertices or cycles. *)
Definition forest (n : nat) (P : parents) : Prop :=
  forall i, i < n -> (forall p, P i = Some p -> p < n) /\ exists r, rep P i r.

(** proper ancestor *)
Inductive panc (P : parents) : nat -> nat -> Prop :=
| panc_one i p : P i = Some p -> panc P i p
| panc_step i p a : P i = Some p -> panc P p a -> panc P i a.

Lemma fupd_eq V (f : nat -> V) i v : fupd f i v i = v.
Proof. unfold fupd. rewrite Nat.eqb_refl. auto. Qed.
Lemma fupd_neq V (f : nat -> V) i v j : j <> i -> fupd f i v j = f j.
Proof. unfold fupd. intros. apply Nat.eqb_neq in H. rewrite H. auto. Qed.

Section Reps.
  Variable P : parents.

  Lemma rep_det i r r' : rep P i r -> rep P i r' -> r = r'.
  Proof.
    intros H; revert r'. induction H as [r E|i p r E H IH]; intros r' H'; inversion H' as [? E'|? p' ? E' H'']; subst; try congruence.
    apply IH. congruence.
  Qed.
  Lemma rep_is_root i r : rep P i r -> P r = None.
  Proof. induction 1; auto. Qed.
  Lemma panc_trans i j k : panc P i j -> panc P j k -> panc P i k.
  Proof. induction 1; intros; eauto using panc_step. Qed.
  Lemma panc_rep i a r : panc P i a -> rep P a r -> rep P i r.
  Proof. induction 1; intros; eauto using rep_step. Qed.
  Lemma panc_rep' i a r : panc P i a -> rep P i r -> rep P a r.
  Proof.
    induction 1 as [i p E|i p a E H IH]; intros Hr; inversion Hr; subst; try congruence.
    apply IH. congruence.
  Qed.
  Lemma panc_nonroot i a : panc P i a -> P i <> None.
  Proof. destruct 1; congruence. Qed.

  (** Distance to the root. *)
  Inductive depth : nat -> nat -> Prop :=
  | depth_root r : P r = None -> depth r 0
  | depth_step i p k : P i = Some p -> depth p k -> depth i (S k).
  Lemma rep_depth i r : rep P i r -> exists k, depth i k.
  Proof. induction 1 as [r E|i p r E H [k IH]]; [exists 0|exists (S k)]; econstructor; eauto. Qed.
  Lemma depth_det i k k' : depth i k -> depth i k' -> k = k'.
  Proof.
    intros H; revert k'. induction H as [r E|i p k E H IH]; intros k' H'; inversion H' as [? E'|? p' ? E' H'']; subst; try congruence.
    f_equal. apply IH. congruence.
  Qed.
  Lemma panc_depth i a k : panc P i a -> depth i k -> exists k', depth a k' /\ k' < k.
  Proof.
    intros H; revert k. induction H as [i p E|i p a E H IH]; intros k Hk; inversion Hk as [? E'|? p' k' E' Hk']; subst; try congruence.
    - assert (p' = p) by congruence. subst. exists k'. split; auto.
    - assert (p' = p) by congruence. subst. destruct (IH _ Hk') as (k2 & H2 & H3). exists k2. split; auto.
  Qed.
End Reps.

Section Comp.
  Variable n : nat.
  Variable P0 : parents.
  Hypothesis F0 : forest n P0.

  Lemma panc_in i a : i < n -> panc P0 i a -> a < n.
  Proof. intros Hi H; revert Hi; induction H as [i p E|i p a E H IH]; intros Hi; apply (F0 Hi) in E; auto. Qed.
  Lemma rep_in i r : i < n -> rep P0 i r -> r < n.
  Proof. intros Hi H; revert Hi; induction H as [|i p r E H IH]; intros Hi; auto. apply IH. apply (F0 Hi) in E; auto. Qed.

  (** [P] is [P0] with some paths compressed. *)
  Definition comp (P : parents) : Prop := forall i, i < n ->
    match P0 i with None => P i = None | Some _ => exists a, P i = Some a /\ panc P0 i a end.

  Lemma comp_refl : comp P0.
  Proof. intros i Hi. destruct (P0 i) as [p|] eqn:E; auto. exists p. split; auto. apply panc_one; auto. Qed.

  Lemma comp_root P i : comp P -> i < n -> (P i = None <-> P0 i = None).
  Proof.
    intros C Hi. specialize (C i Hi). destruct (P0 i) as [p|]; [|tauto].
    destruct C as (a & E & _). split; congruence.
  Qed.
  Lemma comp_some P i a : comp P -> i < n -> P i = Some a -> panc P0 i a.
  Proof.
    intros C Hi E. specialize (C i Hi). destruct (P0 i) as [p|]; [|congruence].
    destruct C as (b & E' & H). congruence.
  Qed.

  Lemma comp_rep P i r : comp P -> i < n -> (rep P i r <-> rep P0 i r).
  Proof.
    intros C Hi. split.
    - intros H; revert Hi; induction H as [r E|i p r E H IH]; intros Hi.
      + apply rep_root. apply (proj1 (comp_root C Hi)); auto.
      + pose proof (comp_some C Hi E) as Ha. apply (panc_rep Ha). apply IH. apply (panc_in Hi Ha).
    - intros H. destruct (rep_depth H) as (k & Hk). revert i r Hi H Hk.
      induction k as [k IH] using lt_wf_ind. intros i r Hi H Hk.
      destruct (P i) as [a|] eqn:E.
      + pose proof (comp_some C Hi E) as Ha. apply rep_step with a; auto.
        destruct (panc_depth Ha Hk) as (k' & Hk' & Hlt).
        apply (IH k'); auto; [apply (panc_in Hi Ha)|apply (panc_rep' Ha); auto].
      + pose proof (proj1 (comp_root C Hi) E) as E0.
        assert (i = r) by (apply (rep_det (rep_root P0 i E0) H)). subst. apply rep_root; auto.
  Qed.

  Lemma comp_forest P : comp P -> forest n P.
  Proof.
    intros C i Hi. split.
    - intros p E. apply (panc_in Hi). apply (comp_some C Hi E).
    - destruct (proj2 (F0 Hi)) as (r & Hr). exists r. apply (proj2 (comp_rep r C Hi)); auto.
  Qed.

  (** Invariant of a running find(i0). *)
  Definition finv (i0 : nat) (f : fstate) : Prop :=
    match f with
    | FRoot i => i = i0
    | FLoadP i => i = i0 /\ P0 i <> None
    | FTest i p => i < n /\ p < n /\ panc P0 i p /\ (forall r, rep P0 i0 r -> rep P0 p r)
    | FLoadG i p => i < n /\ p < n /\ panc P0 i p /\ P0 p <> None /\ (forall r, rep P0 i0 r -> rep P0 p r)
    | FStore i p g => i < n /\ p < n /\ g < n /\ panc P0 i p /\ panc P0 p g /\ (forall r, rep P0 i0 r -> rep P0 p r)
    | FRet r => rep P0 i0 r
    end.

  (** Number of actions left. *)
  Inductive fleft : fstate -> nat -> Prop :=
  | fl_ret r : fleft (FRet r) 0
  | fl_test i p k : depth P0 p k -> fleft (FTest i p) (3 * k + 1)
  | fl_loadg i p k : depth P0 p k -> fleft (FLoadG i p) (3 * k)
  | fl_store i p g k : depth P0 p (S k) -> panc P0 p g -> fleft (FStore i p g) (3 * k + 2)
  | fl_loadp i k : depth P0 i k -> fleft (FLoadP i) (3 * k + 2)
  | fl_root i k : depth P0 i k -> fleft (FRoot i) (3 * k + 3).

  Lemma load_in V (f : nat -> V) i : i < n -> load n f i = Ok (f i).
  Proof. intros H. unfold load. apply Nat.ltb_lt in H. rewrite H. auto. Qed.

  Lemma fstep_inv i0 f P : i0 < n -> comp P -> finv i0 f ->
    exists f' P', fstep n f P = Ok (f', P') /\ comp P' /\ finv i0 f' .
  Proof.
    intros Hi0 C H. destruct f as [i|i|i p|i p|i p g|r]; simpl in H; simpl.
    - subst i. rewrite (load_in P Hi0). simpl. destruct (P i0) as [p|] eqn:E.
      + do 2 eexists. split; [reflexivity|]. split; auto. split; auto.
        intros E0. apply (proj2 (comp_root C Hi0)) in E0. congruence.
      + do 2 eexists. split; [reflexivity|]. split; auto. apply rep_root. apply (proj1 (comp_root C Hi0)); auto.
    - destruct H as [-> H]. rewrite (load_in P Hi0). simpl.
      destruct (P i0) as [p|] eqn:E; [|exfalso; apply H; apply (proj1 (comp_root C Hi0)); auto].
      pose proof (comp_some C Hi0 E) as Ha.
      do 2 eexists. split; [reflexivity|]. split; auto. simpl. repeat split; auto.
      + apply (panc_in Hi0 Ha).
      + intros r. apply (panc_rep' Ha).
    - destruct H as (Hi & Hp & Ha & Hr). rewrite (load_in P Hp). simpl.
      destruct (P p) as [g|] eqn:E; do 2 eexists; (split; [reflexivity|]); split; auto; simpl.
      + repeat split; auto. intros E0. apply (proj2 (comp_root C Hp)) in E0. congruence.
      + destruct (proj2 (F0 Hi0)) as (r & H0). specialize (Hr r H0).
        assert (p = r) by (apply (rep_det (rep_root P0 p (proj1 (comp_root C Hp) E)) Hr)). subst. auto.
    - destruct H as (Hi & Hp & Ha & Hn & Hr). rewrite (load_in P Hp). simpl.
      destruct (P p) as [g|] eqn:E; [|exfalso; apply Hn; apply (proj1 (comp_root C Hp)); auto].
      pose proof (comp_some C Hp E) as Hg.
      do 2 eexists. split; [reflexivity|]. split; auto. simpl. repeat split; auto. apply (panc_in Hp Hg).
    - destruct H as (Hi & Hp & Hg & Ha & Hag & Hr). rewrite (load_in P Hi). simpl.
      do 2 eexists. split; [reflexivity|]. split.
      + intros j Hj. destruct (Nat.eq_dec j i) as [->|D].
        * destruct (P0 i) as [q|] eqn:E.
          -- rewrite fupd_eq. exists g. split; auto. apply (panc_trans Ha Hag).
          -- apply panc_nonroot in Ha. congruence.
        * rewrite fupd_neq by auto. apply C; auto.
      + simpl. repeat split; auto. intros r H0. apply (panc_rep' Hag). auto.
    - do 2 eexists. split; [reflexivity|]. split; auto.
  Qed.

  Lemma fleft_ex i0 f : i0 < n -> finv i0 f -> exists k, fleft f k.
  Proof.
    intros Hi0 H.
    assert (D : forall p, p < n -> exists k, depth P0 p k).
    { intros p Hp. destruct (proj2 (F0 Hp)) as (r & Hr). apply (rep_depth Hr). }
    destruct f as [i|i|i p|i p|i p g|r]; simpl in H.
    - subst. destruct (D i0 Hi0) as (k & Hk). eexists. econstructor; eauto.
    - destruct H as [-> _]. destruct (D i0 Hi0) as (k & Hk). eexists. econstructor; eauto.
    - destruct H as (_ & Hp & _). destruct (D p Hp) as (k & Hk). eexists. econstructor; eauto.
    - destruct H as (_ & Hp & _). destruct (D p Hp) as (k & Hk). eexists. econstructor; eauto.
    - destruct H as (_ & Hp & _ & _ & Hg & _). destruct (D p Hp) as (k & Hk).
      destruct (panc_depth Hg Hk) as (k' & _ & Hlt). destruct k as [|k]; [lia|]. eexists. eapply fl_store; eauto.
    - eexists. constructor.
  Qed.

  Lemma fleft_det f k k' : fleft f k -> fleft f k' -> k = k'.
  Proof.
    intros H H'. inversion H; subst; inversion H'; subst; auto;
      match goal with A : depth _ _ _, B : depth _ _ _ |- _ => pose proof (depth_det A B); lia end.
  Qed.

  (** Every action of find brings it closer to its return. *)
  Lemma fstep_left i0 f P f' P' k : i0 < n -> comp P -> finv i0 f -> fdone f = false ->
    fstep n f P = Ok (f', P') -> fleft f k -> exists k', fleft f' k' /\ k' < k.
  Proof.
    intros Hi0 C H D E Hk. inversion Hk as [|i p k0 Hd|i p k0 Hd|i p g k0 Hd Hg|i k0 Hd|i k0 Hd]; subst; simpl in *; try discriminate.
    - destruct H as (Hi & Hp & Ha & Hr). rewrite (load_in P Hp) in E. simpl in E. inversion E; subst.
      destruct (P' p) as [g|] eqn:Ep.
      + exists (3 * k0). split; [constructor; auto|lia].
      + exists 0. split; [constructor|lia].
    - destruct H as (Hi & Hp & Ha & Hn & Hr). rewrite (load_in P Hp) in E. simpl in E.
      destruct (P p) as [g|] eqn:Ep; [|discriminate]. simpl in E. inversion E; subst.
      pose proof (comp_some C Hp Ep) as Hg. destruct (panc_depth Hg Hd) as (k' & Hd' & Hlt).
      destruct k0 as [|k0]; [lia|].
      exists (3 * k0 + 2). split; [|lia]. constructor; auto.
    - destruct H as (Hi & Hp & Hgn & Ha & Hag & Hr). rewrite (load_in P Hi) in E. simpl in E. inversion E; subst.
      destruct (panc_depth Hag Hd) as (k' & Hd' & Hlt).
      exists (3 * k' + 1). split; [constructor; auto|lia].
    - destruct H as [-> Hn]. rewrite (load_in P Hi0) in E. simpl in E.
      destruct (P i0) as [p|] eqn:Ep; [|discriminate]. simpl in E. inversion E; subst.
      pose proof (comp_some C Hi0 Ep) as Hg. destruct (panc_depth Hg Hd) as (k' & Hd' & Hlt).
      exists (3 * k' + 1). split; [constructor; auto|lia].
    - subst i. rewrite (load_in P Hi0) in E. simpl in E. inversion E; subst.
      destruct (P' i0) as [p|] eqn:Ep.
      + exists (3 * k0 + 2). split; [constructor; auto|lia].
      + exists 0. split; [constructor|lia].
  Qed.

  Lemma findSeq_spec i0 : i0 < n -> forall f P, comp P -> finv i0 f -> exists fuel r P',
    (forall k, fuel <= k -> findSeq n k f P = Ok (r, P')) /\ comp P' /\ rep P0 i0 r.
  Proof.
    intros Hi0.
    enough (H : forall k f P, fleft f k -> comp P -> finv i0 f -> exists r P',
      (forall k', k <= k' -> findSeq n k' f P = Ok (r, P')) /\ comp P' /\ rep P0 i0 r).
    { intros f P C Hf. destruct (@fleft_ex i0 f Hi0 Hf) as (k & Hk). exists k. apply (H k f P); auto. }
    induction k as [k IH] using lt_wf_ind. intros f P Hk C Hf.
    destruct (fdone f) eqn:D.
    - destruct f; try discriminate. simpl in Hf. exists r, P. repeat split; auto.
      intros k' _. destruct k'; reflexivity.
    - destruct (@fstep_inv i0 f P Hi0 C Hf) as (f' & P' & E & C' & Hf').
      destruct (@fstep_left i0 f P f' P' k Hi0 C Hf D E Hk) as (k1 & Hk1 & Hlt).
      destruct (IH k1 Hlt f' P' Hk1 C' Hf') as (r & P2 & Hrun & C2 & Hr).
      exists r, P2. repeat split; auto. intros k' Hk'.
      destruct k' as [|k']; [lia|].
      assert (U : findSeq n (S k') f P = ('(f1, P1) <- fstep n f P ;; findSeq n k' f1 P1)) by (destruct f; try discriminate; reflexivity).
      rewrite U, E. apply Hrun. lia.
  Qed.
End Comp.

(** Linking a root below a vertex of another tree merges the two trees. *)
Lemma fupd_rep n P x y : forest n P -> x < n -> y < n -> P x = None -> ~ rep P y x ->
  let P' := fupd P x (Some y) in
  forest n P' /\
  forall i r, i < n -> (rep P' i r <-> (rep P i r /\ r <> x) \/ (rep P i x /\ rep P y r)).
Proof.
  intros F Hx Hy Rx Ny P'.
  assert (A : forall i r, rep P i r -> r <> x -> rep P' i r).
  { intros i r H Hr. induction H as [r E|i p r E H IH].
    - apply rep_root. unfold P'. rewrite fupd_neq; auto.
    - apply rep_step with p; auto. unfold P'. rewrite fupd_neq; auto. congruence. }
  assert (B : forall i r, rep P i x -> rep P y r -> rep P' i r).
  { intros i r H Hr. remember x as z in H. induction H as [z E|i p z E H IH]; subst.
    - apply rep_step with y; [unfold P'; apply fupd_eq|]. apply A; auto. intros ->. auto.
    - apply rep_step with p; auto. unfold P'. rewrite fupd_neq; auto. congruence. }
  assert (Dec : forall i, i < n -> (exists r, rep P i r /\ r <> x) \/ rep P i x).
  { intros i Hi. destruct (proj2 (F i Hi)) as (r & Hr).
    destruct (Nat.eq_dec r x) as [->|D]; eauto. }
  destruct (proj2 (F y Hy)) as (ry & Hry).
  split.
  - intros i Hi. split.
    + intros p. unfold P'. destruct (Nat.eq_dec i x) as [->|D].
      * rewrite fupd_eq. intros E; inversion E; subst; auto.
      * rewrite fupd_neq by auto. apply (F i Hi).
    + destruct (Dec i Hi) as [(r & Hr & D)|Hr]; eauto.
  - intros i r Hi. split.
    + intros H. destruct (Dec i Hi) as [(r' & Hr & D)|Hr].
      * left. assert (r = r') by (apply (rep_det H); apply A; auto). subst. auto.
      * right. split; auto. assert (r = ry) by (apply (rep_det H); apply B; auto). subst. auto.
    + intros [[H D]|[H1 H2]]; auto.
Qed.

(** ** Any number of concurrent finds *)
Definition findStep (n : nat) (l : fstate) (P : parents) := fstep n l P.

Section ParFind.
  Variable n : nat.
  Variable P0 : parents.
  Hypothesis F0 : forest n P0.
  Variable args : list nat.
  Hypothesis Hargs : forall i, In i args -> i < n.

  Definition pfI (ls : list fstate) (P : parents) : Prop :=
    comp n P0 P /\ length ls = length args /\
    forall k i f, nth_error args k = Some i -> nth_error ls k = Some f -> finv n P0 i f.

  Lemma pf_step ls P k f : pfI ls P -> nth_error ls k = Some f -> fdone f = false ->
    exists f' P', fstep n f P = Ok (f', P') /\ pfI (upd k f' ls) P'.
  Proof.
    intros (C & Hl & HI) Hk D.
    assert (Hkl : k < length ls) by (apply nth_error_Some; congruence).
    destruct (nth_error args k) as [i|] eqn:Ei; [|apply nth_error_None in Ei; lia].
    assert (Hi : i < n) by (apply Hargs; eapply nth_error_In; eauto).
    destruct (@fstep_inv n P0 F0 i f P Hi C (HI k i f Ei Hk)) as (f' & P' & E & C' & Hf').
    exists f', P'. split; auto. split; auto. split; [rewrite upd_length; auto|].
    intros k' i' f'' Ei' Hk'. destruct (Nat.eq_dec k k') as [<-|Dk].
    - rewrite nth_error_upd_eq in Hk' by auto. inversion Hk'; subst. congruence.
    - rewrite nth_error_upd_neq in Hk' by auto. eapply HI; eauto.
  Qed.

  Lemma parFind_safe sched :
    match runT (fstep n) fdone sched (map FRoot args) P0 with
    | Ok (ls, P) => (exists rs, ls = map FRet rs /\ Forall2 (rep P0) args rs) /\
                    forest n P /\ forall i r, i < n -> (rep P i r <-> rep P0 i r)
    | Fuel => True
    | _ => False
    end.
  Proof.
    assert (H0 : pfI (map FRoot args) P0).
    { split; [apply (comp_refl)|]. split; [apply map_length|].
      intros k i f Ei Hk. rewrite nth_error_map, Ei in Hk. simpl in Hk. inversion Hk; subst. reflexivity. }
    pose proof (runT_inv (fstep n) fdone pfI pf_step sched _ _ H0) as H.
    destruct (runT (fstep n) fdone sched (map FRoot args) P0) as [[ls P]| | |]; auto.
    destruct H as ((C & Hl & HI) & Hfin & _).
    split; [|split; [apply (comp_forest F0 C)|intros i r Hi; apply (comp_rep F0 r C Hi)]].
    clear H0. rewrite forallb_forall in Hfin.
    assert (G : forall l a, length l = length a ->
      (forall k i f, nth_error a k = Some i -> nth_error l k = Some f -> finv n P0 i f) ->
      (forall f, In f l -> fdone f = true) -> exists rs, l = map FRet rs /\ Forall2 (rep P0) a rs).
    { induction l as [|f l IH]; intros [|i a] Hlen Hinv Hd; try discriminate.
      - exists []. split; auto.
      - destruct (IH a) as (rs & -> & HF); [simpl in Hlen; lia|intros k; apply (Hinv (S k))|intros g Hg; apply Hd; right; auto|].
        specialize (Hd f (or_introl eq_refl)). destruct f; try discriminate.
        exists (r :: rs). split; auto. constructor; auto. apply (Hinv 0 i (FRet r)); auto. }
    apply (G ls args); auto.
  Qed.
End ParFind.
