(** The searches of the neighbour structure over the reals. *)
From Coq Require Import Reals Lra Psatz NArith Sorted.
From Verif Require Import Base Num DelModel OctModel OctSpec OctProofs.
Set Implicit Arguments.

Section Search.
  Variable vp : nat -> P2.
  Variable q : nat.
  Definition dq (o : nat) : R := edist (vp q) (vp o).
  Notation upd1 := (@updN RNum vp q).
  Notation ent := (entry RNum).
  Definition dd (e : ent) : R := snd e.

  Definition somes (st : list ent) : list nat := flat_map (fun e => match fst e with Some o => [o] | None => [] end) st.
  Definition others (l : list nat) : list nat := filter (fun o => negb (o =? q)) l.

  Record Inv (k : nat) (seen : list nat) (st : list ent) : Prop := {
    i_len : length st = k;
    i_sort : StronglySorted (fun a b => (dd b <= dd a)%R) st;
    i_ent : forall e, In e st -> match fst e with None => dd e = Rfmax | Some o => dd e = dq o /\ (dq o < Rfmax)%R end;
    i_rest : exists rest, Permutation seen (somes st ++ rest) /\ forall x, In x rest -> (@eps0 RNum st <= dq x)%R;
  }.

  Lemma inv_perm k s s' st : Permutation s s' -> Inv k s st -> Inv k s' st.
  Proof.
    intros H [A B C (r & E & F)]. constructor; auto. exists r. split; auto. rewrite <- H. auto.
  Qed.

  Lemma start_inv k : Inv k [] (@startE RNum k).
  Proof.
    unfold startE. constructor.
    - apply repeat_length.
    - induction k as [|k IH]; cbn [repeat]; constructor; auto. rewrite Forall_forall. intros e I. apply repeat_spec in I. subst e. apply Rle_refl.
    - intros e I. apply repeat_spec in I. subst e. reflexivity.
    - exists []. split; [|intros x []]. rewrite app_nil_r. induction k; cbn; auto.
  Qed.

  Lemma bubble_in (e : ent) st x : In x (@bubble RNum e st) <-> x = e \/ In x st.
  Proof.
    induction st as [|y st IH]; cbn [bubble].
    - cbn. intuition.
    - destruct (nlt RNum (snd e) (snd y)); cbn [In]; [rewrite IH|]; intuition.
  Qed.
  Lemma bubble_perm (e : ent) st : Permutation (@bubble RNum e st) (e :: st).
  Proof.
    induction st as [|y st IH]; cbn [bubble]; auto. destruct (nlt RNum (snd e) (snd y)); auto. rewrite IH. apply perm_swap.
  Qed.
  Lemma bubble_sort (e : ent) st : StronglySorted (fun a b => (dd b <= dd a)%R) st -> StronglySorted (fun a b => (dd b <= dd a)%R) (@bubble RNum e st).
  Proof.
    induction 1 as [|y st S IH F]; cbn [bubble]; [repeat constructor|].
    match goal with |- context [if ?c then _ else _] => destruct c eqn:E end.
    - apply Rltb_true in E. constructor; auto. rewrite Forall_forall in *. intros x I. apply bubble_in in I. destruct I as [->|I]; [apply Rlt_le; exact E|auto].
    - apply Rltb_false in E. constructor; [constructor; auto|]. constructor; auto. rewrite Forall_forall in *. intros x I. exact (Rle_trans _ _ _ (F x I) E).
  Qed.
  Lemma somes_perm s s' : Permutation s s' -> Permutation (somes s) (somes s').
  Proof. intros H. unfold somes. apply Permutation_flat_map. auto. Qed.

  Lemma upd_inv k seen st o : 1 <= k -> o <> q -> Inv k seen st -> Inv k (seen ++ [o]) (upd1 st o).
  Proof.
    intros Hk No [A B C (rest & E & F)]. unfold updN. destruct (Nat.eqb_spec o q) as [Q|_]; [congruence|].
    change (@vlen RNum (@psub RNum (vp q) (vp o))) with (dq o).
    destruct st as [|e0 st]; [cbn in A; lia|]. cbn [eps0] in F. change (snd e0) with (dd e0) in *. cbn [nlt RNum].
    inversion B as [|? ? B1 B2]; subst. rewrite Forall_forall in B2.
    destruct (Rltb (dq o) (dd e0)) eqn:L.
    - apply Rltb_true in L.
      assert (M : (@eps0 RNum (@bubble RNum (Some o, dq o) st) <= dd e0)%R).
      { pose proof (bubble_in (Some o, dq o) st) as BI. destruct (@bubble RNum (Some o, dq o) st) as [|h tl] eqn:EB.
        - exfalso. apply (proj2 (BI (Some o, dq o))). auto.
        - cbn [eps0]. destruct (proj1 (BI h) (or_introl eq_refl)) as [->|I]; [apply Rlt_le, L|apply B2; auto]. }
      constructor.
      + rewrite (Permutation_length (bubble_perm _ _)). cbn. auto.
      + apply bubble_sort; auto.
      + intros e I. apply bubble_in in I. destruct I as [->|I]; [|apply C; right; auto]. cbn [fst]. split; [reflexivity|].
        specialize (C e0 (or_introl eq_refl)). destruct (fst e0); [destruct C as (C1 & C2); lra|rewrite C in L; auto].
      + exists (somes [e0] ++ rest). split.
        * rewrite E. rewrite (somes_perm (bubble_perm _ _)). unfold somes. cbn [flat_map fst app]. rewrite app_nil_r.
          rewrite <- Permutation_cons_append. constructor. rewrite <- app_assoc. apply Permutation_app_swap_app.
        * intros x I. apply in_app_iff in I. destruct I as [I|I]; [|exact (Rle_trans _ _ _ M (F x I))].
          unfold somes in I. cbn [flat_map] in I. rewrite app_nil_r in I. specialize (C e0 (or_introl eq_refl)).
          destruct (fst e0) as [x'|]; [|destruct I]. destruct I as [<-|[]]. destruct C as (C1 & _). rewrite <- C1. exact M.
    - apply Rltb_false in L. constructor; auto. exists (rest ++ [o]). split.
      + rewrite E, app_assoc. reflexivity.
      + intros x I. apply in_app_iff in I. destruct I as [I|[<-|[]]]; auto.
  Qed.

  Lemma fold_inv k its : 1 <= k -> forall seen st, Inv k seen st -> Inv k (seen ++ others its) (fold_left upd1 its st).
  Proof.
    intros Hk. induction its as [|o its IH]; intros seen st H; cbn [fold_left others filter].
    - rewrite app_nil_r. auto.
    - destruct (Nat.eqb_spec o q) as [->|No]; cbn [negb].
      + replace (upd1 st q) with st by (unfold updN; rewrite Nat.eqb_refl; auto). apply IH. auto.
      + change (o :: filter (fun o => negb (o =? q)) its) with ([o] ++ others its). rewrite app_assoc. apply IH. apply upd_inv; auto.
  Qed.

  Lemma prune_inv k l : forall seen st, (forall x, In x l -> (@eps0 RNum st <= dq x)%R) -> Inv k seen st -> Inv k (seen ++ l) st.
  Proof.
    intros seen st H [A B C (r & E & F)]. constructor; auto. exists (r ++ l). split; [rewrite E, app_assoc; auto|].
    intros x I. apply in_app_iff in I. destruct I; auto.
  Qed.

  Lemma dist_fst a b : (Rabs (fst a - fst b) <= edist a b)%R.
  Proof. destruct a as [x y], b as [x' y']. unfold edist. cbn [fst snd]. rewrite <- sqrt_Rsqr_abs. apply sqrt_le_1_alt. unfold Rsqr. pose proof (Rle_0_sqr (x - x')). pose proof (Rle_0_sqr (y - y')). unfold Rsqr in *. lra. Qed.
  Lemma dist_snd a b : (Rabs (snd a - snd b) <= edist a b)%R.
  Proof. destruct a as [x y], b as [x' y']. unfold edist. cbn [fst snd]. rewrite <- sqrt_Rsqr_abs. apply sqrt_le_1_alt. unfold Rsqr. pose proof (Rle_0_sqr (x - x')). pose proof (Rle_0_sqr (y - y')). unfold Rsqr in *. lra. Qed.

  Lemma within_far b eps u : @withinB RNum vp q b eps = false -> inB b (vp u) -> (eps <= dq u)%R.
  Proof.
    intros W I. unfold dq. pose proof (dist_fst (vp q) (vp u)) as D1. pose proof (dist_snd (vp q) (vp u)) as D2.
    unfold withinB in W. unfold inB in I. destruct b as [[b1 b2] [b3 b4]]. cbn [fst snd nlt nsub nadd RNum] in *.
    destruct (vp q) as [x y], (vp u) as [x' y']. cbn [fst snd] in *.
    pose proof (Rle_abs (x - x')). pose proof (Rle_abs (- (x - x'))). pose proof (Rle_abs (y - y')). pose proof (Rle_abs (- (y - y'))).
    rewrite !Rabs_Ropp in *.
    apply andb_false_iff in W. destruct W as [W|W]; apply andb_false_iff in W; destruct W as [W|W]; apply Rltb_false in W; lra.
  Qed.

  Lemma knn_inv k t : 1 <= k -> otOk vp t -> forall seen st, Inv k seen st -> Inv k (seen ++ others (oitems t)) (@knnRec RNum vp q t st).
  Proof.
    intros Hk. induction t as [b its|b n l IHl r IHr]; intros O seen st H; cbn [knnRec].
    - destruct (@withinB RNum vp q (obx (OLeaf b its)) (eps0 st)) eqn:W; [apply fold_inv; auto|].
      apply prune_inv; auto. intros x I. apply filter_In in I. eapply within_far; [exact W|]. apply (otOk_box vp _ O). apply I.
    - destruct (@withinB RNum vp q (obx (ONode b n l r)) (eps0 st)) eqn:W.
      + destruct O as (_ & _ & Ol & Or). unfold others. cbn [oitems]. rewrite filter_app. destruct (nlt RNum _ _).
        * rewrite app_assoc. apply IHr; auto.
        * apply inv_perm with ((seen ++ others (oitems r)) ++ others (oitems l)); [|apply IHl; auto].
          rewrite <- app_assoc. apply Permutation_app_head. apply Permutation_app_comm.
      + apply prune_inv; auto. intros x I. apply filter_In in I. eapply within_far; [exact W|]. apply (otOk_box vp _ O). apply I.
  Qed.

  Lemma somes_full st : (forall e, In e st -> fst e <> None) -> length (somes st) = length st.
  Proof.
    unfold somes. induction st as [|e st IH]; intros H; cbn [flat_map length]; auto. rewrite app_length, IH by (intros; apply H; right; auto).
    specialize (H e (or_introl eq_refl)). destruct (fst e); [reflexivity|congruence].
  Qed.
  Lemma somes_le st : length (somes st) <= length st /\ ((exists e, In e st /\ fst e = None) -> length (somes st) < length st).
  Proof.
    unfold somes. induction st as [|e st (IH1 & IH2)]; cbn [flat_map length]; [split; [lia|intros (e & [] & _)]|]. rewrite app_length.
    destruct (fst e) as [o|] eqn:E; cbn [length].
    - split; [lia|]. intros (e' & [->|I] & Q); [congruence|]. assert (length (flat_map (fun e => match fst e with Some o => [o] | None => [] end) st) < length st) by (apply IH2; eauto). lia.
    - split; lia.
  Qed.

  Lemma inv_final k C st : 1 <= k -> Inv k C st -> NoDup C -> k <= length C -> (forall x, In x C -> (dq x < Rfmax)%R) ->
    exists l, rev (map fst st) = map Some l /\ kNearestOf dq C k l.
  Proof.
    intros Hk [A B F (rest & E & G)] ND KC FM.
    assert (NN : forall e, In e st -> fst e <> None).
    { intros e I Q. pose proof (F e I) as Fe. rewrite Q in Fe.
      assert (R0 : rest = []).
      { destruct rest as [|x rest]; auto. exfalso. specialize (G x (or_introl eq_refl)).
        assert (I2 : In x C) by (apply (Permutation_in _ (Permutation_sym E)); apply in_app_iff; right; left; auto). specialize (FM x I2).
        destruct st as [|e0 st]; [destruct I|]. cbn [eps0] in G. change (snd e0) with (dd e0) in G. inversion B as [|? ? B1 B2]; subst. rewrite Forall_forall in B2.
        destruct I as [->|I]; [rewrite Fe in G; lra|specialize (B2 e I); cbv beta in B2; lra]. }
      subst rest. rewrite app_nil_r in E. pose proof (Permutation_length E). pose proof (proj2 (somes_le st)). specialize (H0 (ex_intro _ e (conj I Q))). lia. }
    assert (E1 : map fst st = map Some (somes st)).
    { clear - NN. induction st as [|e st IH]; auto. unfold somes. cbn [map flat_map]. fold (somes st). rewrite map_app, <- IH by (intros; apply NN; right; auto).
      specialize (NN e (or_introl eq_refl)). destruct (fst e); [reflexivity|congruence]. }
    assert (E2 : map dd st = map dq (somes st)).
    { clear - NN F. induction st as [|e st IH]; auto. unfold somes. cbn [map flat_map]. fold (somes st). rewrite map_app, <- IH by (intros; first [apply F; right; assumption|apply NN; right; assumption]).
      specialize (NN e (or_introl eq_refl)). specialize (F e (or_introl eq_refl)). destruct (fst e); [|congruence]. destruct F as (-> & _). reflexivity. }
    set (s := somes st) in *. exists (rev s). split; [rewrite E1, map_rev; auto|].
    assert (LS : length s = k) by (unfold s; rewrite somes_full; auto).
    assert (ND2 : NoDup s). { apply (Permutation_NoDup E) in ND. clear - ND. induction s as [|x s IH]; [constructor|]. cbn in ND. inversion ND; subst. constructor; auto. intros I. apply H1. apply in_app_iff; auto. }
    assert (SS : StronglySorted (fun a b => (dq b <= dq a)%R) s).
    { assert (S2 : StronglySorted (fun a b => (b <= a)%R) (map dd st)).
      { clear - B. induction B as [|e st S IH F0]; cbn [map]; constructor; auto. rewrite Forall_forall in *. intros y I. apply in_map_iff in I. destruct I as (z & <- & I). apply F0; auto. }
      rewrite E2 in S2. clear - S2. induction s as [|x s IH]; constructor; cbn [map] in S2; inversion S2; subst; auto.
      rewrite Forall_forall in *. intros y I. apply H2. apply in_map. auto. }
    assert (LE : forall u, In u s -> (dq u <= @eps0 RNum st)%R).
    { intros u I. assert (I2 : In (dq u) (map dd st)) by (rewrite E2; apply in_map; auto). apply in_map_iff in I2. destruct I2 as (e & Ee & Ie).
      rewrite <- Ee. destruct st as [|e0 st]; [destruct Ie|]. cbn [eps0]. inversion B as [|? ? B1 B2]; subst. rewrite Forall_forall in B2.
      destruct Ie as [->|Ie]; [apply Rle_refl|apply B2; auto]. }
    split; [rewrite rev_length; auto|]. split; [apply NoDup_rev; auto|]. split; [|split].
    - intros u I. apply in_rev in I. apply (Permutation_in _ (Permutation_sym E)). apply in_app_iff; auto.
    - intros i j u v L Eu Ev. assert (Lj : j < length s) by (rewrite <- (rev_length s); apply nth_error_Some; congruence).
      assert (RV : forall i, i < length s -> nth_error (rev s) i = nth_error s (length s - S i)).
      { intros i0 L0. rewrite (nth_error_nth' (rev s) 0) by (rewrite rev_length; auto). rewrite (nth_error_nth' s 0) by lia. f_equal. apply rev_nth. auto. }
      rewrite RV in Eu, Ev by lia. assert (L2 : length s - S j < length s - S i) by lia. exact (sorted_nth SS L2 Ev Eu).
    - intros u w Iu Iw Nw. apply in_rev in Iu. rewrite <- in_rev in Nw. apply (Permutation_in _ E) in Iw. apply in_app_iff in Iw.
      destruct Iw as [Iw|Iw]; [tauto|]. specialize (LE u Iu). specialize (G w Iw). lra.
  Qed.

  (** Candidates: all stored vertices except the query. *)
  Lemma search_ok t k : 1 <= k -> otOk vp t -> NoDup (oitems t) -> k <= length (others (oitems t)) ->
    (forall x, In x (oitems t) -> (dq x < Rfmax)%R) ->
    exists l, rev (map fst (@knnRec RNum vp q t (@startE RNum k))) = map Some l /\ kNearestOf dq (others (oitems t)) k l.
  Proof.
    intros Hk O ND L FM. pose proof (@knn_inv k t Hk O [] _ (start_inv k)) as I. cbn [app] in I.
    apply (inv_final Hk I); auto; [apply NoDup_filter; auto|]. intros x Ix. apply filter_In in Ix. apply FM. apply Ix.
  Qed.

  (** [near] returns one of the stored vertices, not the query. *)
  Fixpoint nearLeaf (t : otree RNum) : list nat :=
    match t with OLeaf _ its => its | ONode _ _ l r => if nlt RNum (@cdist RNum vp q l) (@cdist RNum vp q r) then nearLeaf l else nearLeaf r end.
  Lemma near_fold t : forall st, @nearRec RNum vp q t st = fold_left upd1 (nearLeaf t) st.
  Proof. induction t as [b its|b n l IHl r IHr]; intros st; cbn [nearRec nearLeaf]; auto. destruct (nlt RNum _ _); auto. Qed.
  Lemma nearLeaf_in t : In (nearLeaf t) (oleaves t).
  Proof. induction t as [b its|b n l IHl r IHr]; cbn [nearLeaf oleaves]; [left; auto|]. apply in_app_iff. destruct (nlt RNum _ _); auto. Qed.
  Lemma leaf_items t its : In its (oleaves t) -> forall x, In x its -> In x (oitems t).
  Proof.
    induction t as [b i0|b n l IHl r IHr]; cbn [oleaves oitems].
    - intros [<-|[]]. auto.
    - intros I x Ix. apply in_app_iff. apply in_app_iff in I. destruct I; eauto.
  Qed.
  Lemma near_ok t : NoDup (oitems t) -> (exists x, In x (nearLeaf t) /\ x <> q) -> (forall x, In x (oitems t) -> (dq x < Rfmax)%R) ->
    exists u, @near RNum vp q t = Some u /\ In u (nearLeaf t) /\ u <> q.
  Proof.
    intros ND (x & Ix & Nx) FM. unfold near. rewrite near_fold.
    pose proof (@fold_inv 1 (nearLeaf t) ltac:(lia) [] _ (start_inv 1)) as [A B F (rest & E & G)]. cbn [app] in E.
    destruct (fold_left upd1 (nearLeaf t) (startE RNum 1)) as [|e [|? ?]]; cbn in A; try lia.
    specialize (F e (or_introl eq_refl)). unfold somes in E. cbn [flat_map app] in E. rewrite app_nil_r in E. destruct (fst e) as [u|].
    - exists u. split; auto. assert (I : In u (others (nearLeaf t))) by (apply (Permutation_in _ (Permutation_sym E)); left; auto).
      apply filter_In in I. destruct I as (I & Q). split; auto. apply negb_true_iff in Q. apply Nat.eqb_neq in Q. auto.
    - exfalso. assert (I : In x rest). { apply (Permutation_in _ E). apply filter_In. split; auto. apply negb_true_iff, Nat.eqb_neq. auto. }
      specialize (G x I). cbn [eps0] in G. change (snd e) with (dd e) in G. specialize (FM x (leaf_items _ _ (nearLeaf_in t) _ Ix)). lra.
  Qed.
End Search.
