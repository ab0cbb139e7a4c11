(** Histories of batch insertions and erasures on the dynamic kd-tree. *)
From Verif Require Import Base Num KdModel KdSpec KdBuild KdSplit DynModel DynProofs.
Set Implicit Arguments.

(** ** Specification: the set of live locations under a history.
    [live]/[erased] before, the operations, [live]/[erased] after. *)
Section Spec.
  Variable N : Num.
  Variable fin : nT N -> Prop.
  Variable dim : nat.
  Variable A : Type.
  Variable pt : A -> list (nT N).
  Definition samePlace (x y : A) : Prop := forall d, d < dim ->
    nle N (coord (pt x) d) (coord (pt y) d) = true /\ nle N (coord (pt y) d) (coord (pt x) d) = true.
  (** no common coordinate *)
  Definition generic (l : list A) : Prop := ForallOrdPairs (fun x y => forall d, d < dim ->
    nlt N (coord (pt x) d) (coord (pt y) d) = true \/ nlt N (coord (pt y) d) (coord (pt x) d) = true) l.
  Definition finite (l : list A) : Prop := forall x, In x l -> forall d, d < dim -> fin (coord (pt x) d).

  Inductive hist : list A -> list A -> list (dop A) -> list A -> list A -> Prop :=
  | h_nil L D : hist L D [] L D
  | h_ins xs L D ops L' D' :
      finite xs -> generic (xs ++ L ++ D) -> hist (xs ++ L) D ops L' D' ->
      hist L D (Ins xs :: ops) L' D'
  | h_del xs keep gone L D ops L' D' :
      finite xs -> ForallOrdPairs (fun x y => ~ samePlace x y) xs ->
      (forall x d, In x xs -> In d D -> ~ samePlace d x) ->
      Permutation (keep ++ gone) L ->
      (forall y, In y keep -> forall x, In x xs -> ~ samePlace y x) ->
      (forall y, In y gone -> exists x, In x xs /\ samePlace y x) ->
      hist keep (gone ++ D) ops L' D' ->
      hist L D (Del xs :: ops) L' D'.
End Spec.

Section Hist.
  Variable N : Num.
  Variable ok fin : nT N -> Prop.
  Hypothesis OL : OrdLaws N ok.
  Hypothesis fin_ok : forall x, fin x -> ok x.
  Variable dim : nat.
  Hypothesis Hdim : 1 <= dim.
  Variable A : Type.
  Variable pt : A -> list (nT N).
  Variable thr : nat.
  Hypothesis Hthr : 2 <= thr.
  Variable part : (A -> bool) -> list A -> list A * list A.
  Variable med : nat -> list A -> list A * list A.
  Hypothesis Hpart : part_ok part.
  Hypothesis Hmed : med_ok fin pt med.
  Hypothesis Hmid : MidLaw N ok fin.

  Notation tr := (dtree N A).
  Notation finite := (@finite N fin dim A pt).
  Notation hist := (@hist N fin dim A pt).
  Notation generic := (@generic N dim A pt).
  Notation strict := (@strict N ok dim A pt).
  Notation same := (sameCoords N dim A pt).
  Notation hit := (hit N dim pt).
  Notation finIt := (@finIt N fin dim A pt).
  Notation dinv := (@dinv N fin dim A pt).
  Notation boxed := (@boxed N fin dim A pt).

  Lemma same_iff x y : same x y = true <-> samePlace N dim pt x y.
  Proof.
    unfold sameCoords, samePlace. rewrite forallb_forall. split.
    - intros H d Hd. specialize (H d ltac:(apply in_seq0; auto)). apply andb_true_iff in H. auto.
    - intros H d Hd. apply in_seq0 in Hd. apply andb_true_iff. auto.
  Qed.
  Lemma same_niff x y : same x y = false <-> ~ samePlace N dim pt x y.
  Proof. rewrite <- same_iff. destruct (same x y); split; intros; congruence. Qed.

  Definition dead (t : tr) : list A := map fst (filter (fun e => negb (snd e)) (entries t)).

  Lemma entries_split t : Permutation (iter t ++ dead t) (map fst (entries t)).
  Proof.
    rewrite iter_entries. unfold dead. rewrite <- map_app. apply Permutation_map, filter_perm_split.
  Qed.

  Lemma all_true_dead t l : Permutation (iter t) l -> Permutation (map fst (entries t)) l -> dead t = [].
  Proof.
    intros P Pe. unfold dead. rewrite filter_none; auto. intros e He.
    rewrite (@all_true N dim Hdim A thr Hthr t l P Pe e He). auto.
  Qed.

  Lemma insert_dead t : forall xs t', dinv t -> (forall x, In x xs -> finIt x) ->
    insert N dim A pt thr part med xs t = Ok t' -> exists purged, Permutation (dead t' ++ purged) (dead t).
  Proof.
    induction t as [data n b|n k s b l IHl r IHr]; intros xs t' HI HF; cbn [insert].
    - unfold leafInsert. set (live := map fst (filter snd data)) in *. destruct HI as (Hn & Hb & Hd).
      destruct (Z.leb_spec (Z.of_nat thr) (Z.of_nat (length xs) + n)) as [Hbig|Hsmall].
      + destruct (Z.eqb_spec n (Z.of_nat (length live))) as [En|]; [|discriminate]. intros E.
        assert (L : 2 <= length (xs ++ live)) by (rewrite app_length; lia).
        destruct (@mkNode_built N ok fin OL fin_ok dim Hdim A pt thr Hthr part med Hpart Hmed
                    (S (length (xs ++ live))) 0 (xs ++ live)) as (t & E' & _ & P & Pe & _); auto; try lia.
        { intros x Hx. apply in_app_or in Hx as [Hx|Hx]; auto.
          apply in_map_iff in Hx as (e & <- & He). apply filter_In in He as [He _]. apply Hd; auto. }
        rewrite E in E'. inversion E'; subst t. rewrite (@all_true_dead _ _ P Pe). exists (dead (DLeaf data n b)). auto.
      + intros E; inversion E; subst. exists []. rewrite app_nil_r. unfold dead. cbn [entries].
        rewrite filter_app, map_app, (@filter_none _ _ (map (fun x => (x, true)) xs)); [rewrite app_nil_r; auto|].
        intros e He. apply in_map_iff in He as (x & <- & _). auto.
    - destruct HI as (Hn & Hb & S1 & S2 & Hk & Il & Ir).
      pose proof (part_perm Hpart (goesLeft N A pt k s) xs) as PP.
      destruct (part (goesLeft N A pt k s) xs) as [xl xr]. cbn [fst snd] in PP.
      assert (Fl : forall x, In x xl -> In x xs).
      { intros x Hx. eapply Permutation_in; [exact PP|apply in_or_app; auto]. }
      assert (Fr : forall x, In x xr -> In x xs).
      { intros x Hx. eapply Permutation_in; [exact PP|apply in_or_app; auto]. }
      destruct (insert N dim A pt thr part med xl l) as [l'| | |] eqn:El; try discriminate. cbn [bind].
      destruct (insert N dim A pt thr part med xr r) as [r'| | |] eqn:Er; try discriminate. cbn [bind].
      intros E. inversion E; subst t'; clear E.
      destruct (IHl xl l' Il) as (pl & Pl); auto. destruct (IHr xr r' Ir) as (pr & Pr); auto.
      exists (pl ++ pr). unfold dead in *. cbn [entries]. rewrite !filter_app, !map_app, <- Pl, <- Pr.
      rewrite <- !app_assoc. apply Permutation_app_head. rewrite !app_assoc. apply Permutation_app_tail, Permutation_app_comm.
  Qed.

  Lemma mark_iter xs (t : tr) : map fst (filter snd (map (mark N dim pt xs) (entries t))) =
    filter (fun x => negb (hit xs x)) (iter t).
  Proof.
    rewrite iter_entries. induction (entries t) as [|[x f] l IH]; auto. cbn [map filter mark fst snd].
    destruct f; simpl; [|exact IH]. destruct (hit xs x); simpl; rewrite IH; auto.
  Qed.
  Lemma mark_dead xs (t : tr) : Permutation (map fst (filter (fun e => negb (snd e)) (map (mark N dim pt xs) (entries t))))
    (filter (hit xs) (iter t) ++ dead t).
  Proof.
    unfold dead. rewrite iter_entries. induction (entries t) as [|[x f] l IH]; auto. cbn [map filter mark fst snd].
    destruct f; simpl.
    - destruct (hit xs x); simpl; rewrite IH; auto.
    - rewrite IH. apply Permutation_middle.
  Qed.

  Definition good (t : tr) (L D : list A) : Prop :=
    dinv t /\ strict t /\ Permutation (iter t) L /\ (exists purged, Permutation (dead t ++ purged) D) /\
    generic (L ++ D) /\ finite (L ++ D).

  Lemma apart_generic l : generic l <-> ForallOrdPairs (apart N dim pt) l.
  Proof. reflexivity. Qed.

  Lemma FOP_impl (P Q : A -> A -> Prop) l : (forall x y, In x l -> In y l -> P x y -> Q x y) ->
    ForallOrdPairs P l -> ForallOrdPairs Q l.
  Proof.
    induction l as [|a l IH]; intros H F; [constructor|]. inversion F as [|? ? H1 H2]; subst. constructor.
    - rewrite Forall_forall in *. intros y Hy. apply H; simpl; auto.
    - apply IH; auto. intros; apply H; simpl; auto.
  Qed.

  Lemma hist_run ops L D L' D' : hist L D ops L' D' -> forall t, good t L D ->
    exists t', runOps N dim A pt thr part med ops t = Ok t' /\ good t' L' D'.
  Proof.
    induction 1 as [L D|xs L D ops L' D' Hf Hg Hh IH|xs keep gone L D ops L' D' Hf Hdf HnD HP Hk Hgo Hh IH];
      intros t G.
    - exists t. auto.
    - destruct G as (I & St & P & (purged & PD) & _ & FLD). cbn [runOps].
      assert (Fx : forall x, In x xs -> finIt x) by exact Hf.
      destruct (@insert_spec N ok fin OL fin_ok dim Hdim A pt thr Hthr part med Hpart Hmed t xs I Fx)
        as (t' & E & I' & P' & _ & _).
      rewrite E. cbn [bind].
      assert (Ap : ForallOrdPairs (apart N dim pt) (xs ++ map fst (entries t))).
      { assert (Q : ForallOrdPairs (apart N dim pt) ((xs ++ map fst (entries t)) ++ purged)).
        { eapply FOP_perm; [exact (@apart_sym N dim A pt)| |exact Hg].
          rewrite <- entries_split, <- P, <- PD, <- !app_assoc. auto. }
        apply FOP_app in Q as (Q & _). exact Q. }
      assert (Bx : boxed t) by (apply dinv_iff in I; tauto).
      destruct (@insert_strict N ok fin OL fin_ok dim Hdim A pt thr Hthr part med Hpart Hmed Hmid t xs t' Bx St Fx Ap E)
        as [St' _].
      destruct (@insert_dead t xs t' I Fx E) as (pg & PG).
      apply IH. split; auto. split; auto. split; [rewrite P', P; auto|]. split; [|split].
      + exists (pg ++ purged). rewrite app_assoc, PG; auto.
      + rewrite <- app_assoc. auto.
      + intros x Hx. rewrite <- app_assoc in Hx. apply in_app_or in Hx as [Hx|Hx]; auto.
    - destruct G as (I & St & P & (purged & PD) & Gn & FLD). cbn [runOps].
      assert (Fx : forall x, In x xs -> finIt x) by exact Hf.
      assert (Bx : boxed t) by (apply dinv_iff in I; tauto).
      assert (Cx : counts t) by (apply dinv_iff in I; tauto).
      assert (Fe : @finEnt N fin dim A pt t).
      { intros e He. apply (@boxed_entries N ok fin OL fin_ok dim A pt t Bx e He). }
      pose proof (@erase_exact N ok fin OL fin_ok dim A pt part Hpart t xs St Fe Fx) as EX.
      assert (Hkeep : forall y, In y keep -> hit xs y = false).
      { intros y Hy. unfold hit. destruct (existsb _ xs) eqn:E; auto. apply existsb_exists in E as (x & Hx & E).
        apply same_iff in E. exfalso. eapply Hk; eauto. }
      assert (Hgone : forall y, In y gone -> hit xs y = true).
      { intros y Hy. destruct (Hgo y Hy) as (x & Hx & E). apply existsb_exists. exists x. split; auto. apply same_iff; auto. }
      assert (F1 : Permutation (filter (fun x => negb (hit xs x)) (iter t)) keep).
      { rewrite (@Permutation_filter _ _ _ _ P), <- (@Permutation_filter _ _ _ _ HP), filter_app.
        rewrite filter_all, (@filter_none _ _ gone), app_nil_r; auto.
        - intros y Hy. rewrite Hgone; auto.
        - intros y Hy. rewrite Hkeep; auto. }
      assert (F2 : Permutation (filter (hit xs) (iter t)) gone).
      { rewrite (@Permutation_filter _ _ _ _ P), <- (@Permutation_filter _ _ _ _ HP), filter_app.
        rewrite filter_none, (@filter_all _ _ gone); auto. }
      apply IH. split; [|split; [|split; [|split; [|split]]]].
      + apply dinv_iff. split; [apply (@erase_boxed N fin dim A pt part); auto|].
        apply (@erase_counts N ok fin OL fin_ok dim Hdim A pt thr Hthr part Hpart t xs Bx Cx Fx).
        * eapply FOP_impl; [|exact Hdf]. intros x y _ _ H. apply same_niff; auto.
        * intros e He Hd. unfold hit. destruct (existsb _ xs) eqn:E; auto. apply existsb_exists in E as (x & Hx & E).
          exfalso. apply (HnD x (fst e) Hx); [|apply same_iff; auto].
          eapply Permutation_in; [exact PD|]. apply in_or_app. left. unfold dead. apply in_map, filter_In.
          rewrite Hd. auto.
      + (* strictness only looks at the items *)
        apply (@erase_strict N ok dim A pt part Hpart); auto.
      + rewrite iter_entries, EX, mark_iter. auto.
      + exists purged. unfold dead. rewrite EX, mark_dead, F2, <- app_assoc. apply Permutation_app_head. auto.
      + apply apart_generic. eapply FOP_perm; [exact (@apart_sym N dim A pt)| |exact Gn].
        rewrite <- HP, <- app_assoc. auto.
      + intros x Hx. apply FLD. rewrite <- HP, <- app_assoc. auto.
  Qed.

  (** ** From the construction *)
  Theorem history_exact its ops L' D' t0 : 2 <= length its -> finite its -> generic its ->
    hist its [] ops L' D' -> build N dim A pt thr part med its = Ok t0 ->
    exists t, runOps N dim A pt thr part med ops t0 = Ok t /\ Permutation (iter t) L' /\
      dsize t = Z.of_nat (length L').
  Proof.
    intros Hn HF HG HH HB.
    destruct (@build_built N ok fin OL fin_ok dim Hdim A pt thr Hthr part med Hpart Hmed its Hn HF)
      as (t & E & I & P & Pe & _). rewrite HB in E. inversion E; subst t.
    assert (St : strict t0).
    { eapply (@fresh_strict N ok fin OL fin_ok dim Hdim A pt thr Hthr part med Hpart Hmed Hmid) with (its := its);
        [| | | |exact HG|exact HB]; auto; lia. }
    destruct (hist_run HH (t := t0)) as (t & R & I' & _ & P' & _).
    { split; auto. split; auto. split; auto. rewrite app_nil_r. split; [|auto].
      exists []. rewrite (@all_true_dead t0 _ P Pe). auto. }
    exists t. split; auto. split; auto. rewrite (@dinv_size N fin dim Hdim A pt thr Hthr t I'), (Permutation_length P'). auto.
  Qed.

  (** ** Any history that returns *)
  Definition finiteOp (o : dop A) : Prop := match o with Ins xs => finite xs | Del xs => True end.

  Lemma run_boxed ops : forall t t', boxed t -> (forall o, In o ops -> finiteOp o) ->
    runOps N dim A pt thr part med ops t = Ok t' -> boxed t'.
  Proof.
    induction ops as [|[xs|xs] ops IH]; intros t t' HB HF; cbn [runOps].
    - intros E; inversion E; subst; auto.
    - destruct (insert N dim A pt thr part med xs t) as [t1| | |] eqn:E; try discriminate. cbn [bind].
      intros E2. eapply IH; [|intros; apply HF; simpl; auto|exact E2].
      apply (@insert_boxed N ok fin OL fin_ok dim Hdim A pt thr Hthr part med Hpart Hmed t xs t1); auto.
      exact (HF (Ins xs) (or_introl eq_refl)).
    - intros E2. eapply IH; [|intros; apply HF; simpl; auto|exact E2].
      apply (@erase_boxed N fin dim A pt part); auto.
  Qed.

  Lemma built_boxed its t0 : 2 <= length its -> finite its ->
    build N dim A pt thr part med its = Ok t0 -> boxed t0 /\ Permutation (iter t0) its.
  Proof.
    intros Hn HF HB.
    destruct (@build_built N ok fin OL fin_ok dim Hdim A pt thr Hthr part med Hpart Hmed its Hn HF)
      as (t & E & I & P & _). rewrite HB in E. inversion E; subst. apply dinv_iff in I. tauto.
  Qed.

  (** check() accepts every such tree. *)
  Lemma contains_ok b p : (forall d, d < dim -> fin (coord p d)) -> @binv N fin dim b ->
    (forall d, d < dim -> nle N (coord (bmin b) d) (coord p d) = true /\ nle N (coord p d) (coord (bmax b) d) = true) ->
    contains N dim b p = true.
  Proof.
    intros Fp Hb H. apply forallb_forall. intros i Hi. apply in_seq0 in Hi.
    destruct (Hb i Hi) as (F1 & F2 & _), (H i Hi) as [H1 H2]. specialize (Fp i Hi).
    rewrite (ol_le OL) in H1, H2 by auto. rewrite H1, H2. auto.
  Qed.
  Lemma check_boxed t : boxed t -> check N dim A pt t = true.
  Proof.
    induction t as [data n b|n k s b l IHl r IHr]; cbn [check].
    - intros [Hb Hd]. apply forallb_forall. intros e He. destruct (Hd e He). apply contains_ok; auto.
    - intros (Hb & S1 & _ & _ & Bl & Br). rewrite IHl, IHr by auto. rewrite !andb_true_r.
      assert (Il := @boxed_binv N fin dim A pt _ Bl).
      apply andb_true_iff. split; apply contains_ok; auto; try (intros d Hd; apply Il; auto).
      + intros d Hd. split; [apply S1; auto|]. destruct (Hb d Hd) as (? & ? & _), (Il d Hd) as (? & ? & ?).
        apply (nle_trans OL) with (y := coord (bmax (dbox l)) d); auto. apply S1; auto.
      + intros d Hd. split; [|apply S1; auto]. destruct (Hb d Hd) as (? & ? & _), (Il d Hd) as (? & ? & ?).
        apply (nle_trans OL) with (y := coord (bmin (dbox l)) d); auto. apply S1; auto.
  Qed.

  (** ** Insertions only: no condition on the locations. *)
  Lemma insert_only bs : forall t, dinv t -> (forall xs, In xs bs -> finite xs) ->
    exists t', runOps N dim A pt thr part med (map Ins bs) t = Ok t' /\ dinv t' /\
      Permutation (iter t') (concat bs ++ iter t).
  Proof.
    induction bs as [|xs bs IH]; intros t I HF; cbn [map runOps concat].
    - exists t. auto.
    - destruct (@insert_spec N ok fin OL fin_ok dim Hdim A pt thr Hthr part med Hpart Hmed t xs I
                  (HF xs (or_introl eq_refl))) as (t1 & E & I1 & P1 & _ & _).
      rewrite E. cbn [bind]. destruct (IH t1 I1) as (t' & R & I' & P'); [intros; apply HF; simpl; auto|].
      exists t'. split; auto. split; auto. rewrite P', P1, !app_assoc. apply Permutation_app_tail, Permutation_app_comm.
  Qed.

  Theorem inserts_exact its bs t0 : 2 <= length its -> finite its -> (forall xs, In xs bs -> finite xs) ->
    build N dim A pt thr part med its = Ok t0 ->
    exists t, runOps N dim A pt thr part med (map Ins bs) t0 = Ok t /\ Permutation (iter t) (concat bs ++ its) /\
      dsize t = Z.of_nat (length (concat bs ++ its)).
  Proof.
    intros Hn HF HX HB.
    destruct (@build_built N ok fin OL fin_ok dim Hdim A pt thr Hthr part med Hpart Hmed its Hn HF)
      as (t & E & I & P & _). rewrite HB in E. inversion E; subst t.
    destruct (@insert_only bs t0 I HX) as (t & R & I' & P'). exists t. split; auto.
    rewrite P in P'. split; auto.
    rewrite (@dinv_size N fin dim Hdim A pt thr Hthr t I'), (Permutation_length P'). auto.
  Qed.

  Theorem build_total its : 2 <= length its -> finite its ->
    exists t0, build N dim A pt thr part med its = Ok t0 /\ Permutation (iter t0) its /\
      dsize t0 = Z.of_nat (length its).
  Proof.
    intros Hn HF. destruct (@build_built N ok fin OL fin_ok dim Hdim A pt thr Hthr part med Hpart Hmed its Hn HF)
      as (t & E & I & P & _). exists t. split; auto. split; auto.
    rewrite (@dinv_size N fin dim Hdim A pt thr Hthr t I), (Permutation_length P). auto.
  Qed.

  (** Steps from any tree reached by a history. *)
  Theorem step_insert its ops t0 t xs t' : 2 <= length its -> finite its -> (forall o, In o ops -> finiteOp o) ->
    build N dim A pt thr part med its = Ok t0 -> runOps N dim A pt thr part med ops t0 = Ok t ->
    finite xs -> insert N dim A pt thr part med xs t = Ok t' -> Permutation (iter t') (xs ++ iter t).
  Proof.
    intros Hn HF HO HB HR HX HI. destruct (@built_boxed its t0 Hn HF HB) as [B0 _].
    assert (Bt := @run_boxed ops t0 t B0 HO HR).
    apply (@insert_boxed N ok fin OL fin_ok dim Hdim A pt thr Hthr part med Hpart Hmed t xs t'); auto.
  Qed.
  Theorem step_erase t xs : exists gone,
    Permutation (iter t) (iter (fst (erase N dim A pt part xs t)) ++ gone) /\
    forall y, In y gone -> exists x, In x xs /\ samePlace N dim pt y x.
  Proof.
    destruct (@erase_sound N dim A pt part Hpart t xs) as (gone & P & G). exists gone. split; auto.
    intros y Hy. apply G in Hy. apply existsb_exists in Hy as (x & Hx & E). exists x. split; auto.
    apply same_iff; auto.
  Qed.
  Theorem check_reached its ops t0 t : 2 <= length its -> finite its -> (forall o, In o ops -> finiteOp o) ->
    build N dim A pt thr part med its = Ok t0 -> runOps N dim A pt thr part med ops t0 = Ok t ->
    check N dim A pt t = true.
  Proof.
    intros Hn HF HO HB HR. destruct (@built_boxed its t0 Hn HF HB) as [B0 _].
    apply check_boxed. eapply run_boxed; eauto.
  Qed.
End Hist.
