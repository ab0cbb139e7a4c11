(** Concurrent finds and links. *)
From Coq Require Import Permutation.
From Verif Require Import Base Sched UfModel UfProofs KruskalSpec SpecCommit KruskalModel KruskalFinal UfLinkModel.
Set Implicit Arguments.

(** parents are smaller *)
Definition desc (n : nat) (P : parents) : Prop := forall i p, i < n -> P i = Some p -> p < i.
(** the edges of a union-find *)
Definition edgesOf (n : nat) (P : parents) : list (nat * nat) :=
  flat_map (fun i => match P i with Some p => [(i, p)] | None => [] end) (seq 0 n).
(** the successful links *)
Definition link1 (t : tstate) : list (nat * nat) := match t with TRet u v true => [(u, v)] | _ => [] end.
Definition links (ls : list tstate) : list (nat * nat) := flat_map link1 ls.

Section Desc.
  Variable n : nat.
  Variable P : parents.
  Hypothesis D : desc n P.
  Lemma desc_rep i : i < n -> exists r, rep P i r.
  Proof.
    induction i as [i IH] using lt_wf_ind. intros Hi. destruct (P i) as [p|] eqn:E; [|exists i; apply rep_root; auto].
    pose proof (D Hi E). destruct (IH p) as (r & Hr); try lia. exists r. eapply rep_step; eauto.
  Qed.
  Lemma desc_forest : forest n P.
  Proof. intros i Hi. split; [intros p E; pose proof (D Hi E); lia|apply desc_rep; auto]. Qed.
  Lemma desc_le i r : i < n -> rep P i r -> r <= i.
  Proof. intros Hi H. revert Hi. induction H as [r E|i p r E H IH]; intros Hi; auto. pose proof (D Hi E). specialize (IH ltac:(lia)). lia. Qed.
  Lemma same_refl a : a < n -> samerep P a a.
  Proof. intros H. destruct (desc_rep H) as (r & Hr). exists r. auto. Qed.
  Lemma same_trans a b c : samerep P a b -> samerep P b c -> samerep P a c.
  Proof. intros (r & A & B) (r' & C & E). rewrite (rep_det C B) in E. exists r. auto. Qed.
  Lemma same_parent i p : i < n -> P i = Some p -> samerep P i p.
  Proof. intros Hi E. pose proof (D Hi E). destruct (@desc_rep p) as (r & Hr); [lia|]. exists r. split; auto. eapply rep_step; eauto. Qed.

  (** a store of path compression *)
  Lemma store_rep x g : x < n -> g < x -> P x <> None -> samerep P x g ->
    desc n (fupd P x (Some g)) /\ forall a r, a < n -> (rep (fupd P x (Some g)) a r <-> rep P a r).
  Proof.
    intros Hx Hg Nx (rx & X1 & X2).
    assert (A : forall a r, a < n -> rep P a r -> rep (fupd P x (Some g)) a r).
    { induction a as [a IH] using lt_wf_ind. intros r Ha H. destruct (Nat.eq_dec a x) as [->|Ne].
      - apply rep_step with g; [apply fupd_eq|]. apply IH; auto; [lia|]. rewrite (rep_det H X1). auto.
      - inversion H as [? E|? p ? E H']; subst.
        + apply rep_root. rewrite fupd_neq; auto.
        + apply rep_step with p; [rewrite fupd_neq; auto|]. pose proof (D Ha E). apply IH; auto; lia. }
    split.
    - intros i p Hi E. destruct (Nat.eq_dec i x) as [->|Ne].
      + rewrite fupd_eq in E. inversion E; subst; auto.
      + rewrite fupd_neq in E by auto. eauto.
    - intros a r Ha. split; [|apply A; auto]. intros H. destruct (desc_rep Ha) as (r' & H'). rewrite (rep_det H (A a r' Ha H')). auto.
  Qed.
End Desc.
Lemma same_sym P a b : samerep P a b -> samerep P b a.
Proof. intros (r & A & B). exists r. auto. Qed.

Lemma links_upd l' : forall ls k l, nth_error ls k = Some l -> Permutation (link1 l' ++ links ls) (link1 l ++ links (upd k l' ls)).
Proof.
  induction ls as [|t ls IH]; intros [|k] l E; try discriminate.
  - inversion E; subst. cbn [links flat_map]. change (upd 0 l' (l :: ls)) with (l' :: ls). cbn [links flat_map].
    rewrite !app_assoc. apply Permutation_app_tail. apply Permutation_app_comm.
  - cbn in E. change (upd (S k) l' (t :: ls)) with (t :: upd k l' ls). unfold links. cbn [flat_map].
    rewrite (Permutation_app_comm (link1 t) (flat_map link1 ls)), app_assoc. etransitivity; [apply Permutation_app_tail, IH, E|].
    rewrite <- app_assoc. apply Permutation_app_head, Permutation_app_comm.
Qed.
Lemma conn_perm es es' a b : Permutation es es' -> conn es a b -> conn es' a b.
Proof. intros H. apply conn_mono. intros x Hx. eapply Permutation_in; eauto. Qed.

Lemma conn_edges n P : desc n P -> forall a b, a < n -> b < n -> (samerep P a b <-> conn (edgesOf n P) a b).
Proof.
  intros D.
  assert (IN : forall i p, In (i, p) (edgesOf n P) <-> i < n /\ P i = Some p).
  { intros i p. unfold edgesOf. rewrite in_flat_map. split.
    - intros (x & Hx & H). apply in_seq in Hx. destruct (P x) as [q|] eqn:E; [|destruct H]. destruct H as [H|[]]. inversion H; subst. split; auto; lia.
    - intros [Hi E]. exists i. split; [apply in_seq; lia|]. rewrite E. simpl; auto. }
  assert (A : forall i r, i < n -> rep P i r -> conn (edgesOf n P) i r).
  { intros i r Hi H. revert Hi. induction H as [r E|i p r E H IH]; intros Hi; [apply conn_refl|].
    pose proof (D i p Hi E). eapply conn_trans; [apply conn_edge, IN; eauto|]. apply IH. lia. }
  intros a b Ha Hb. split.
  - intros (r & H1 & H2). eapply conn_trans; [apply A; eauto|]. apply conn_sym, A; auto.
  - intros H. assert (G : a = b \/ samerep P a b).
    { clear Ha Hb. revert a b H. apply conn_gen; auto.
      - intros a b [->|H]; auto. right. apply same_sym; auto.
      - intros a b c [->|H] [->|H']; auto. right. eapply same_trans; eauto.
      - intros a b H. apply IN in H. right. apply (same_parent D); apply H. }
    destruct G as [->|G]; auto. apply (same_refl D Hb).
Qed.

Section Run.
  Variable n : nat.
  Variable P0 : parents.
  Hypothesis D0 : desc n P0.
  Variable ops : list op.
  Hypothesis okOps : forall o, In o ops -> match o with OFind i => i < n | OLink u v => v < u /\ u < n end.

  Definition linv (P : parents) (i : nat) (f : fstate) : Prop :=
    match f with
    | FRoot x => x = i
    | FLoadP x => x = i /\ P x <> None
    | FTest x p => p < x /\ x < n /\ P x <> None /\ samerep P i x /\ samerep P x p
    | FLoadG x p => p < x /\ x < n /\ P x <> None /\ samerep P i x /\ samerep P x p /\ P p <> None
    | FStore x p g => p < x /\ x < n /\ P x <> None /\ samerep P i x /\ samerep P x p /\ P p <> None /\ g < p /\ samerep P p g
    | FRet r => r < n /\ samerep P i r /\ P0 r = None
    end.
  Definition tinv (P : parents) (o : op) (t : tstate) : Prop :=
    match o, t with
    | OFind i, TFind f => linv P i f
    | OLink u v, TTry u' v' | OLink u v, TCas u' v' => u' = u /\ v' = v
    | OLink u v, TRet u' v' b => u' = u /\ v' = v /\ P u <> None
    | _, _ => False
    end.
  Definition J (ls : list tstate) (P : parents) : Prop :=
    desc n P /\ length ls = length ops /\
    (forall i, i < n -> (P i <> None <-> P0 i <> None \/ In i (map fst (links ls)))) /\
    NoDup (map fst (links ls)) /\ (forall u, In u (map fst (links ls)) -> P0 u = None) /\
    (forall a b, a < n -> b < n -> (samerep P a b <-> conn (edgesOf n P0 ++ links ls) a b)) /\
    forall k o t, nth_error ops k = Some o -> nth_error ls k = Some t -> tinv P o t.

  Definition ext (P P' : parents) : Prop :=
    (forall x, x < n -> P x <> None -> P' x <> None) /\ (forall a b, a < n -> b < n -> samerep P a b -> samerep P' a b).
  Lemma tinv_ext P P' o t : ext P P' -> match o with OFind i => i < n | OLink u v => v < u /\ u < n end -> tinv P o t -> tinv P' o t.
  Proof.
    intros [E1 E2] Ho H. destruct o as [i|u v], t as [f|u' v'|u' v'|u' v' b]; cbn [tinv] in *; auto.
    - destruct f; cbn [linv] in *; auto.
      + destruct H as [-> H]. auto.
      + destruct H as (H1 & H2 & H3 & H4 & H5). repeat split; auto; try (apply E2; auto; lia); try (apply E1; auto; lia).
      + destruct H as (H1 & H2 & H3 & H4 & H5 & H6). repeat split; auto; try (apply E2; auto; lia); try (apply E1; auto; lia).
      + destruct H as (H1 & H2 & H3 & H4 & H5 & H6 & H7 & H8). repeat split; auto; try (apply E2; auto; lia); try (apply E1; auto; lia).
      + destruct H as (H1 & H2 & H3). repeat split; auto.
    - destruct H as (H1 & H2 & H3). repeat split; auto. apply E1; auto; lia.
  Qed.
  Lemma ext_refl P : ext P P.
  Proof. split; auto. Qed.

  (** a step that links nothing *)
  Lemma J_same ls P k o t t' P' : J ls P -> nth_error ops k = Some o -> nth_error ls k = Some t -> link1 t = [] -> link1 t' = [] ->
    desc n P' -> (forall x, x < n -> (P' x <> None <-> P x <> None)) -> (forall a r, a < n -> (rep P' a r <-> rep P a r)) ->
    tinv P' o t' -> J (upd k t' ls) P'.
  Proof.
    intros (D & L & HN & ND & HR & HC & HT) Ho Ht L1 L2 D' HN' HRp Ht'.
    assert (PM : Permutation (links ls) (links (upd k t' ls))) by (pose proof (links_upd t' ls k Ht) as X; rewrite L1, L2 in X; exact X).
    assert (PF : Permutation (map fst (links ls)) (map fst (links (upd k t' ls)))) by (apply Permutation_map; auto).
    assert (HS : forall a b, a < n -> b < n -> (samerep P' a b <-> samerep P a b)).
    { intros a b Ha Hb. split; intros (r & A & B); exists r; split; apply HRp; auto. }
    split; auto. split; [rewrite upd_length; auto|]. split; [|split; [|split; [|split]]].
    - intros i Hi. rewrite (HN' i Hi), (HN i Hi). split; intros [H|H]; auto; right; [eapply Permutation_in; eauto|].
      eapply Permutation_in; [apply Permutation_sym|]; eauto.
    - eapply Permutation_NoDup; eauto.
    - intros u Hu. apply HR. eapply Permutation_in; [apply Permutation_sym|]; eauto.
    - intros a b Ha Hb. rewrite (HS a b Ha Hb), (HC a b Ha Hb). split; apply conn_perm; apply Permutation_app_head; auto. apply Permutation_sym; auto.
    - intros k' o' t'' Ho' Hk'. destruct (Nat.eq_dec k k') as [<-|Ne].
      + rewrite nth_error_upd_eq in Hk' by (apply nth_error_Some; congruence). inversion Hk'; subst. congruence.
      + rewrite nth_error_upd_neq in Hk' by auto. apply tinv_ext with P; eauto.
        * split; [intros x Hx; apply HN'; auto|intros a b Ha Hb; apply HS; auto].
        * apply okOps. eapply nth_error_In; eauto.
  Qed.

  Lemma J_step ls P k t : J ls P -> nth_error ls k = Some t -> tdone t = false ->
    exists t' P', tstep n t P = Ok (t', P') /\ J (upd k t' ls) P'.
  Proof.
    intros HJ Hk Hd. pose proof HJ as (D & L & HN & ND & HR & HC & HT).
    assert (Hkl : k < length ls) by (apply nth_error_Some; congruence).
    destruct (nth_error ops k) as [o|] eqn:Eo; [|apply nth_error_None in Eo; lia].
    pose proof (HT k o t Eo Hk) as Ht. pose proof (okOps o (nth_error_In _ _ Eo)) as Ok_o.
    assert (LD : forall i, i < n -> load n P i = Ok (P i)) by (intros; apply load_in; auto).
    assert (RT : forall i, i < n -> P i = None -> P0 i = None).
    { intros i Hi E. destruct (P0 i) eqn:E0; auto. exfalso. assert (P i <> None); [|congruence]. apply HN; auto. left. congruence. }
    assert (SAME : forall t', link1 t = [] -> link1 t' = [] -> tinv P o t' -> J (upd k t' ls) P).
    { intros t' L1 L2 Ht'. apply J_same with P o t; auto; intros; tauto. }
    destruct o as [i|u v], t as [f|u' v'|u' v'|u' v' b]; cbn [tinv] in Ht; try contradiction; try discriminate.
    - cbn [tstep]. destruct f; cbn [linv] in Ht; cbn [fstep]; cbn [tdone fdone] in Hd; try discriminate.
      + subst i0. rewrite LD by auto. cbn [bind]. destruct (P i) as [p|] eqn:E; do 2 eexists; (split; [reflexivity|]); apply SAME; auto; cbn [tinv linv].
        * split; auto. congruence.
        * split; auto. split; [apply (same_refl D); auto|auto].
      + destruct Ht as [-> Ht]. rewrite LD by auto. cbn [bind]. destruct (P i) as [p|] eqn:E; [|congruence]. cbn [bind vid].
        do 2 eexists; (split; [reflexivity|]). apply SAME; auto. cbn [tinv linv]. pose proof (D i p Ok_o E).
        repeat split; auto; [congruence|apply (same_refl D); auto|apply (same_parent D); auto].
      + destruct Ht as (H1 & H2 & H3 & H4 & H5). rewrite LD by lia. cbn [bind]. destruct (P p) as [g|] eqn:E; do 2 eexists; (split; [reflexivity|]); apply SAME; auto; cbn [tinv linv].
        * repeat split; auto. congruence.
        * repeat split; [lia|eapply same_trans; eauto|apply RT; auto; lia].
      + destruct Ht as (H1 & H2 & H3 & H4 & H5 & H6). rewrite LD by lia. cbn [bind]. destruct (P p) as [g|] eqn:E; [|congruence]. cbn [bind vid].
        do 2 eexists; (split; [reflexivity|]). apply SAME; auto. cbn [tinv linv]. assert (Hp : p < n) by lia. pose proof (D p g Hp E).
        repeat split; auto; [congruence|apply (same_parent D); auto].
      + destruct Ht as (H1 & H2 & H3 & H4 & H5 & H6 & H7 & H8). rename i0 into x. rewrite LD by lia. cbn [bind].
        destruct (@store_rep n P D x g) as [D' HRp]; auto; [lia|eapply same_trans; eauto|].
        do 2 eexists; (split; [reflexivity|]). apply J_same with P (OFind i) (TFind (FStore x p g)); auto.
        * intros y Hy. destruct (Nat.eq_dec y x) as [->|Ne]; [rewrite fupd_eq; split; auto; discriminate|]. rewrite fupd_neq by auto. tauto.
        * assert (HS : forall a b, a < n -> b < n -> samerep P a b -> samerep (fupd P x (Some g)) a b).
          { intros a b Ha Hb (r & A & B). exists r. split; apply HRp; auto. }
          cbn [tinv linv]. repeat split; auto; [lia| |apply HS; auto; [lia|eapply same_trans; eauto]|apply HS; auto; lia].
          rewrite fupd_neq by lia. auto.
    - destruct Ht as [-> ->]. cbn [tstep]. rewrite LD by lia. cbn [bind]. destruct (P u) as [q|] eqn:E; do 2 eexists; (split; [reflexivity|]); apply SAME; auto; cbn [tinv].
      + repeat split; auto. congruence.
      + auto.
    - destruct Ht as [-> ->]. destruct Ok_o as [V U]. cbn [tstep]. rewrite LD by lia. cbn [bind]. destruct (P u) as [q|] eqn:E.
      + do 2 eexists; (split; [reflexivity|]). apply SAME; auto. cbn [tinv]. repeat split; auto. congruence.
      + do 2 eexists; (split; [reflexivity|]).
        assert (NV : ~ rep P v u) by (intros H; assert (Hv : v < n) by lia; pose proof (desc_le D Hv H); lia).
        destruct (@link_correct n P u v (desc_forest D)) as (P' & E' & F' & HS); auto; [lia|].
        unfold link in E'. rewrite LD in E' by auto. cbn [bind] in E'. inversion E'; subst P'. clear E'.
        assert (PM : Permutation ((u, v) :: links ls) (links (upd k (TRet u v true) ls))) by (exact (links_upd (TRet u v true) ls k Hk)).
        assert (PF : Permutation (u :: map fst (links ls)) (map fst (links (upd k (TRet u v true) ls)))) by (apply (Permutation_map fst PM)).
        assert (NU : ~ In u (map fst (links ls))) by (intros H; assert (P u <> None); [apply HN; auto|congruence]).
        split; [|split; [rewrite upd_length; auto|split; [|split; [|split; [|split]]]]].
        * intros y p Hy Ey. destruct (Nat.eq_dec y u) as [->|Ne]; [rewrite fupd_eq in Ey; inversion Ey; subst; auto|].
          rewrite fupd_neq in Ey by auto. eauto.
        * intros y Hy. destruct (Nat.eq_dec y u) as [->|Ne].
          -- rewrite fupd_eq. split; [intros _; right; eapply Permutation_in; [exact PF|left; auto]|discriminate].
          -- rewrite fupd_neq by auto. rewrite (HN y Hy). split; intros [H|H]; auto; right.
             ++ eapply Permutation_in; [exact PF|right; auto].
             ++ apply (Permutation_in _ (Permutation_sym PF)) in H. destruct H as [H|H]; [congruence|auto].
        * eapply Permutation_NoDup; [exact PF|]. constructor; auto.
        * intros y Hy. apply (Permutation_in _ (Permutation_sym PF)) in Hy. destruct Hy as [<-|Hy]; auto.
        * intros a b Ha Hb. rewrite (HS a b Ha Hb).
          assert (Q : conn (edgesOf n P0 ++ links (upd k (TRet u v true) ls)) a b <-> conn ((u, v) :: edgesOf n P0 ++ links ls) a b).
          { split; apply conn_perm; [symmetry|]; rewrite <- PM; apply Permutation_middle. }
          rewrite Q, conn_cons. rewrite !HC by lia. tauto.
        * intros k' o' t'' Ho' Hk'. destruct (Nat.eq_dec k k') as [<-|Ne].
          -- rewrite nth_error_upd_eq in Hk' by auto. inversion Hk'; subst. rewrite Eo in Ho'. inversion Ho'; subst. cbn [tinv].
             repeat split; auto. rewrite fupd_eq. discriminate.
          -- rewrite nth_error_upd_neq in Hk' by auto. apply tinv_ext with P; eauto.
             ++ split.
                ** intros y Hy. destruct (Nat.eq_dec y u) as [->|Ny]; [rewrite fupd_eq; discriminate|]. rewrite fupd_neq; auto.
                ** intros a b Ha Hb H. apply HS; auto.
             ++ apply okOps. eapply nth_error_In; eauto.
  Qed.

  Lemma J_start : J (map start ops) P0.
  Proof.
    assert (L0 : links (map start ops) = []).
    { clear okOps. induction ops as [|[i|u v] l IH]; cbn; auto. }
    split; [auto|]. split; [apply map_length|]. rewrite L0. cbn [map]. split; [|split; [constructor|split; [intros u []|split]]].
    - intros i Hi. simpl. tauto.
    - intros a b Ha Hb. rewrite app_nil_r. apply conn_edges; auto.
    - intros k o t Ho Ht. rewrite nth_error_map, Ho in Ht. cbn in Ht. inversion Ht; subst. destruct o; cbn; auto.
  Qed.

  (** every step brings its thread closer to the end *)
  Definition mf (f : fstate) : nat :=
    match f with FRoot i => 3 * i + 2 | FLoadP i => 3 * i + 1 | FTest _ p => 3 * p + 3 | FLoadG _ p => 3 * p + 2 | FStore _ p _ => 3 * p + 1 | FRet _ => 0 end.
  Definition mt (t : tstate) : nat := match t with TFind f => mf f | TTry _ _ => 2 | TCas _ _ => 1 | TRet _ _ _ => 0 end.
  Lemma step_less ls P k t t' P' : J ls P -> nth_error ls k = Some t -> tdone t = false -> tstep n t P = Ok (t', P') -> mt t' < mt t.
  Proof.
    intros (D & L & _ & _ & _ & _ & HT) Hk Hd E.
    assert (Hkl : k < length ls) by (apply nth_error_Some; congruence).
    destruct (nth_error ops k) as [o|] eqn:Eo; [|apply nth_error_None in Eo; lia].
    pose proof (HT k o t Eo Hk) as Ht. pose proof (okOps o (nth_error_In _ _ Eo)) as Ok_o.
    assert (LD : forall i, i < n -> load n P i = Ok (P i)) by (intros; apply load_in; auto).
    destruct o as [i|u v], t as [f|u' v'|u' v'|u' v' b]; cbn [tinv] in Ht; try contradiction; try discriminate.
    - cbn [tstep] in E. destruct f; cbn [linv] in Ht; cbn [fstep] in E; cbn [tdone fdone] in Hd; try discriminate.
      + subst i0. rewrite LD in E by auto. cbn [bind] in E. destruct (P i); inversion E; subst; cbn; lia.
      + destruct Ht as [-> Ht]. rewrite LD in E by auto. cbn [bind] in E. destruct (P i) as [p|] eqn:Ep; [|congruence]. cbn [bind vid] in E.
        pose proof (D i p Ok_o Ep). inversion E; subst; cbn; lia.
      + destruct Ht as (H1 & H2 & H3 & H4 & H5). rewrite LD in E by lia. cbn [bind] in E. destruct (P p); inversion E; subst; cbn; lia.
      + destruct Ht as (H1 & H2 & H3 & H4 & H5 & H6). rewrite LD in E by lia. cbn [bind] in E. destruct (P p); [|congruence]. inversion E; subst; cbn; lia.
      + destruct Ht as (H1 & H2 & H3 & H4 & H5 & H6 & H7 & H8). rewrite LD in E by lia. inversion E; subst; cbn; lia.
    - destruct Ht as [-> ->]. cbn [tstep] in E. rewrite LD in E by lia. cbn [bind] in E. destruct (P u); inversion E; subst; cbn; lia.
    - destruct Ht as [-> ->]. cbn [tstep] in E. rewrite LD in E by lia. cbn [bind] in E. destruct (P u); inversion E; subst; cbn; lia.
  Qed.
End Run.
