(** One insertion keeps the outline. *)
From Coq Require Import Reals Lra List Bool Arith Lia Permutation.
From Verif Require Import Base Num Hull2dModel H2IncModel H2IncGeom H2IncSide H2IncTok H2IncSeg H2IncInv.
Set Implicit Arguments.
Open Scope R_scope.

Section Step.
  Variable V : list p2.
  Variable eps : R.
  Hypothesis eps0 : 0 <= eps.
  Hypothesis sep : forall a b c, In a V -> In b V -> In c V -> 0 < ar a b c -> eps < ar a b c.
  Variable cor : nat -> p2.
  Hypothesis box : forall k q, (k < 4)%nat -> In q V -> boxK k (cor k) (cor (S k)) q.
  Notation pnt := (pnt V). Notation edge := (edge V). Notation wf := (wf V). Notation vis := (vis V eps). Notation seg := (seg V eps). Notation Inv := (Inv V cor). Notation dec := (dec V eps). Notation edges := (edges V).

  Definition cls (n1 n2 : fac) (q : nat) : nat := if vis n1 (pnt q) then 0%nat else if vis n2 (pnt q) then 1%nat else 2%nat.
  Lemma class_ok n1 n2 q : wf n1 -> wf n2 -> (q < length V)%nat -> @class RNum eps V n1 n2 q = Ok (q, cls n1 n2 q).
  Proof.
    intros W1 W2 L. unfold class, pick, cls. replace (@at_ (nT RNum * nT RNum) V q) with (Ok (pnt q)) by (symmetry; exact (at_pnt V L)). cbn [bind].
    rewrite (visibleFrom_ok eps (pnt q) W1). cbn [bind]. destruct (vis n1 (pnt q)); auto. rewrite (visibleFrom_ok eps (pnt q) W2). cbn [bind]. destruct (vis n2 (pnt q)); auto.
  Qed.
  Definition seenBy (h : heap) (v : list nat) : list nat := concat (map fsee (map (facAt h) v)).
  Lemma in_seenBy h v q : In q (seenBy h v) <-> exists f, In f v /\ In q (fsee (facAt h f)).
  Proof.
    unfold seenBy. rewrite in_concat. split.
    - intros (l & Hl & Hq). rewrite map_map in Hl. apply in_map_iff in Hl. destruct Hl as (f & <- & Hf). eauto.
    - intros (f & Hf & Hq). exists (fsee (facAt h f)). split; auto. rewrite map_map. apply in_map_iff. eauto.
  Qed.

  Record stepped (h : heap) (see : list (option nat)) (i : nat) (z : nat) (v : list nat) (e : nat) (a b : nat) (h' : heap) (see' : list (option nat)) : Prop := mkStep {
    t_len : length h' = S (S (length h));
    t_gone : forall f, In f v -> nth_error h' f = Some None;
    t_z : forall x, live h z x -> live h' z (Fac (fp1 x) (fp2 x) (fprev x) (length h) (fsee x) (ftok x));
    t_e : forall x, live h e x -> live h' e (Fac (fp1 x) (fp2 x) (S (length h)) (fnext x) (fsee x) (ftok x));
    t_old : forall f, (f < length h)%nat -> ~ In f (z :: v ++ [e]) -> nth_error h' f = nth_error h f;
    t_1 : exists Q, live h' (length h) (Fac a i z (S (length h)) Q None) /\ forall q, In q Q -> nth_error see' q = Some (Some (length h));
    t_2 : exists Q, live h' (S (length h)) (Fac i b (length h) e Q None) /\ forall q, In q Q -> nth_error see' q = Some (Some (S (length h)));
    t_slen : length see' = length see;
    t_keep : forall q, (q < length see)%nat -> ~ In q (seenBy h v) -> nth_error see' q = nth_error see q;
    t_new : forall q f, In q (seenBy h v) -> nth_error see' q = Some (Some f) ->
      (f = length h /\ 0 < arE (pnt a, pnt i) (pnt q) \/ f = S (length h) /\ 0 < arE (pnt i, pnt b) (pnt q)) /\ forall x, live h' f x -> In q (fsee x);
    t_none : forall q, In q (seenBy h v) -> nth_error see' q = Some None -> arE (pnt a, pnt i) (pnt q) <= 0 /\ arE (pnt i, pnt b) (pnt q) <= 0;
    t_self : nth_error see' i = Some None }.

  Lemma process_heap h see H i f z v e : (i < length V)%nat -> length see = length V -> nth_error see i = Some (Some f) -> seg h (pnt i) z v e -> In f v -> In i (fsee (facAt h f)) ->
    (forall q, In q (seenBy h v) -> (q < length V)%nat) ->
    exists x y h' see', live h (hd 0%nat v) x /\ live h e y /\ @process RNum eps V (St h see H) i = Ok (St h' see' (length h)) /\ stepped h see i z v e (fp1 x) (fp1 y) h' see'.
  Proof.
    intros Li Ls Sf Sg Hf Hi HQ. destruct (seg_ends Sg) as (x & y & w & Lx & Ly & Ex & Lw & Ew & Ep & Ey).
    assert (Hs : In (hd 0%nat v) v) by (pose proof (g_ne Sg); destruct v; [congruence|cbn; auto]).
    destruct (g_vis Sg Hs Lx) as (Wx & _). destruct (g_e Sg Ly) as (Wy & _ & _).
    destruct (seg_live Sg (f := z)) as (zx & Lz); [left; auto|].
    pose proof (g_nd Sg) as ND. apply NoDup_cons_iff in ND. destruct ND as (Nz & ND). apply NoDup_app_elim in ND. destruct ND as (NDv & _ & NDe).
    assert (Nzv : ~ In z v) by (intros X; apply Nz, in_app_iff; auto). assert (Nze : z <> e) by (intros ->; apply Nz, in_app_iff; cbn; auto). assert (Nev : ~ In e v) by (intros X; apply (NDe e); cbn; auto).
    assert (Lv : forall g, In g v -> live h g (facAt h g)). { intros g Hg. destruct (seg_live Sg (f := g)) as (gx & Lg); [right; apply in_app_iff; auto|]. rewrite (facAt_live Lg). auto. }
    set (id1 := length h). set (id2 := S (length h)).
    set (n1 := Fac (fp1 x) i z id2 [] None). set (n2 := Fac i (fp1 y) id1 e [] None).
    assert (W1 : wf n1) by (split; [apply Wx|exact Li]). assert (W2 : wf n2) by (split; [exact Li|apply Wy]).
    set (Q := seenBy h v). set (cl := map (fun q => (q, cls n1 n2 q)) Q).
    set (h1 := h ++ [Some (Fac (fp1 x) i z id2 (chunk 0 cl) None); Some (Fac i (fp1 y) id1 e (chunk 1 cl) None)]).
    set (h2 := upd z (Some (Fac (fp1 zx) (fp2 zx) (fprev zx) id1 (fsee zx) (ftok zx))) h1).
    set (h3 := upd e (Some (Fac (fp1 y) (fp2 y) id2 (fnext y) (fsee y) (ftok y))) h2).
    set (h' := fold_left (fun h f => upd f None h) v h3).
    set (see' := fold_left (fun l c => upd (fst c) (sees id1 id2 (snd c)) l) cl (upd i None see)).
    assert (lz : (z < length h)%nat) by (apply (live_lt Lz)). assert (le : (e < length h)%nat) by (apply (live_lt Ly)).
    assert (lv : forall g, In g v -> (g < length h)%nat) by (intros g Hg; apply (live_lt (Lv g Hg))).
    assert (N1 : forall g, (g < length h)%nat -> nth_error h1 g = nth_error h g) by (intros g L; apply nth_error_app1; auto).
    assert (L1 : length h1 = S (S (length h))) by (unfold h1; rewrite app_length; cbn; lia).
    assert (Nh : forall g, ~ In g v -> nth_error h' g = nth_error h3 g). { intros g N. unfold h'. rewrite nth_del. destruct (existsb (Nat.eqb g) v) eqn:E; auto. apply existsb_nat in E. contradiction. }
    assert (iQ : In i Q) by (apply in_seenBy; eauto).
    assert (Nsee : forall q, (q < length see)%nat -> nth_error see' q = if existsb (Nat.eqb q) Q then Some (sees id1 id2 (cls n1 n2 q)) else nth_error (upd i None see) q).
    { intros q L. unfold see', cl. apply nth_see. rewrite upd_length. auto. }
    assert (Bad1 : ~ In id1 v) by (intros X; apply lv in X; unfold id1 in X; lia). assert (Bad2 : ~ In id2 v) by (intros X; apply lv in X; unfold id2 in X; lia).
    assert (H1' : live h' id1 (Fac (fp1 x) i z id2 (chunk 0 cl) None)).
    { unfold live. rewrite Nh by auto. unfold h3, h2. rewrite !nth_error_upd_neq by (unfold id1; lia). unfold h1, id1. rewrite nth_error_app2, Nat.sub_diag by lia. reflexivity. }
    assert (H2' : live h' id2 (Fac i (fp1 y) id1 e (chunk 1 cl) None)).
    { unfold live. rewrite Nh by auto. unfold h3, h2. rewrite !nth_error_upd_neq by (unfold id2; lia). unfold h1, id2. rewrite nth_error_app2 by lia. replace (S (length h) - length h)%nat with 1%nat by lia. reflexivity. }
    exists x, y, h', see'. split; auto. split; auto. split.
    - unfold process. rewrite (@visOf_ok V eps (St h see H) i f z v e Li Sf Sg Hf). cbn [bind sh ssee]. rewrite (live_get Lx), (live_get Ly). cbn [bind]. rewrite (walk_seg Sg). cbn [bind].
      rewrite (@mapR_fun _ _ (getF h) (facAt h) v) by (intros g Hg; apply live_get, Lv, Hg). cbn [bind]. rewrite Ex.
      assert (Ec : mapR (@class RNum eps V n1 n2) (seenBy h v) = Ok cl) by (apply mapR_fun; intros q Hq; apply class_ok; auto).
      etransitivity; [apply (f_equal (fun r => bind r _)); exact Ec|]. cbn [bind].
      assert (E1 : getF h1 z = Ok zx) by (apply live_get; unfold live; rewrite N1 by auto; exact Lz).
      assert (E2 : getF h2 e = Ok y) by (apply live_get; unfold live, h2; rewrite nth_error_upd_neq by auto; rewrite N1 by auto; exact Ly).
      etransitivity; [apply (f_equal (fun r => bind r _)); exact E1|]. cbn [bind]. etransitivity; [apply (f_equal (fun r => bind r _)); exact E2|]. reflexivity.
    - constructor.
      + unfold h'. assert (X : forall l (g : heap), length (fold_left (fun h f => upd f None h) l g) = length g) by (induction l as [|c l IH]; intros g; auto; cbn; rewrite IH, upd_length; auto). rewrite X. unfold h3, h2. rewrite !upd_length. auto.
      + intros g Hg. unfold h'. rewrite nth_del. rewrite (proj2 (existsb_nat g v) Hg). destruct (nth_error h3 g) eqn:E; auto. apply nth_error_None in E. unfold h3, h2 in E. rewrite !upd_length in E. apply lv in Hg. lia.
      + intros c Lc. rewrite (live_fun Lc Lz). unfold live. rewrite Nh by auto. unfold h3, h2. rewrite nth_error_upd_neq by auto. apply nth_error_upd_eq. lia.
      + intros c Lc. rewrite (live_fun Lc Ly). unfold live. rewrite Nh by auto. unfold h3. apply nth_error_upd_eq. unfold h2. rewrite upd_length. lia.
      + intros g L N. rewrite Nh by (intros X; apply N; right; apply in_app_iff; auto). unfold h3, h2. rewrite !nth_error_upd_neq; auto; intros ->; apply N; [left; auto|right; apply in_app_iff; cbn; auto].
      + exists (chunk 0 cl). split; [exact H1'|]. intros q Hq. apply in_chunk in Hq. destruct Hq as (Hq & C). rewrite Nsee by (rewrite Ls; auto). rewrite (proj2 (existsb_nat q Q) Hq), C. reflexivity.
      + exists (chunk 1 cl). split; [exact H2'|]. intros q Hq. apply in_chunk in Hq. destruct Hq as (Hq & C). rewrite Nsee by (rewrite Ls; auto). rewrite (proj2 (existsb_nat q Q) Hq), C. reflexivity.
      + unfold see', cl. rewrite see_len. apply upd_length.
      + intros q L N. rewrite Nsee by auto. destruct (existsb (Nat.eqb q) Q) eqn:E; [apply existsb_nat in E; contradiction|]. apply nth_error_upd_neq. intros ->. contradiction.
      + intros q g Hq E. rewrite Nsee, (proj2 (existsb_nat q Q) Hq) in E by (rewrite Ls; auto). pose proof (HQ q Hq) as Lq. pose proof (pnt_in V Lq) as Pq.
        assert (K1 : 0 = 0 -> cls n1 n2 q = 0%nat -> 0 < arE (edge n1) (pnt q)). { intros _ C. unfold cls in C. destruct (vis n1 (pnt q)) eqn:V1; [apply (vis_true eps0 sep (pnt _) W1 Pq); auto|]. destruct (vis n2 (pnt q)); discriminate. }
        assert (K2 : 0 = 0 -> cls n1 n2 q = 1%nat -> 0 < arE (edge n2) (pnt q)). { intros _ C. unfold cls in C. destruct (vis n1 (pnt q)) eqn:V1; [discriminate|]. destruct (vis n2 (pnt q)) eqn:V2; [apply (vis_true eps0 sep (pnt _) W2 Pq); auto|discriminate]. }
        destruct (cls n1 n2 q) as [|[|c]] eqn:C; cbn in E; [injection E as <-|injection E as <-|discriminate].
        * split; [left; split; [reflexivity|apply K1; auto]|]. intros c Lc. rewrite (live_fun Lc H1'). cbn [fsee]. apply in_chunk. auto.
        * split; [right; split; [reflexivity|apply K2; auto]|]. intros c Lc. rewrite (live_fun Lc H2'). cbn [fsee]. apply in_chunk. auto.
      + intros q Hq E. rewrite Nsee, (proj2 (existsb_nat q Q) Hq) in E by (rewrite Ls; auto). pose proof (HQ q Hq) as Lq. pose proof (pnt_in V Lq) as Pq.
        unfold cls in E. destruct (vis n1 (pnt q)) eqn:V1; [discriminate|]. destruct (vis n2 (pnt q)) eqn:V2; [discriminate|]. apply (vis_false eps0 sep (pnt _) W1 Pq) in V1. apply (vis_false eps0 sep (pnt _) W2 Pq) in V2. auto.
      + rewrite Nsee by (rewrite Ls; auto). rewrite (proj2 (existsb_nat i Q) iQ). unfold cls. pose proof (pnt_in V Li) as Pi.
        rewrite (proj2 (vis_false eps0 sep (pnt _) W1 Pi)), (proj2 (vis_false eps0 sep (pnt _) W2 Pi)); [reflexivity| |]; unfold arE, edge, n1, n2, ar, cx, vec; cbn [fst snd fp1 fp2]; lra.
  Qed.

  Lemma chain_hd A l B : chain A l B -> l <> [] -> forall d, A = fst (hd d l).
  Proof. destruct l; [congruence|]. intros (E & _) _ d. auto. Qed.
  Lemma chain_last A l B : chain A l B -> l <> [] -> forall d, B = snd (last l d).
  Proof. revert A. induction l as [|c l IH]; intros A C N d; [congruence|]. destruct C as (_ & C). destruct l as [|c' l]; [auto|]. apply (IH (snd c)); auto. discriminate. Qed.
  Lemma map_hd X Y (f : X -> Y) l d : l <> [] -> hd (f d) (map f l) = f (hd d l).
  Proof. destruct l; auto. Qed.
  Lemma map_last X Y (f : X -> Y) l d : last (map f l) (f d) = f (last l d).
  Proof. induction l as [|a l IH]; auto. cbn. destruct l; auto. Qed.

  Lemma step_inv h see T i f k l1 v l2 u w e z m x y h' see' : Inv h see T -> nth_error see i = Some (Some f) -> dec h T (pnt i) k l1 v l2 u w e z m ->
    live h (hd 0%nat v) x -> live h e y -> stepped h see i z v e (fp1 x) (fp1 y) h' see' -> Inv h' see' (setS T k (l1 ++ [length h; S (length h)] ++ l2)).
  Proof.
    intros I Sf D Lx Ly G. pose proof (@see_lt V cor h see T i _ I Sf) as Li. pose proof (pnt_in V Li) as Pi. pose proof (d_k D) as K. pose proof (d_seg D) as Sg.
    destruct (v_side I K) as (NEk & Sd). rewrite (d_T D) in Sd. unfold edges in Sd. rewrite !map_app in Sd.
    set (id2 := S (length h)) in *. set (id1 := length h) in *.
    assert (Hfac : forall g, In g (ring T) -> live h g (facAt h g) /\ wf (facAt h g) /\ forall q, In q (fsee (facAt h g)) -> nth_error see q = Some (Some g)).
    { intros g Hg. destruct (v_fac I g Hg) as (gx & Lg & W & Q). rewrite (facAt_live Lg). auto. }
    assert (Rin : forall g, In g (ring T) <-> In g v \/ In g (e :: m ++ [z])). { intros g. rewrite (d_ring D), <- (d_rest D). rewrite !in_app_iff. tauto. }
    pose proof (d_nd D) as ND. apply NoDup_app_elim in ND. destruct ND as (NDv & NDr & NDx).
    assert (Ie : In e (e :: m ++ [z])) by (left; auto). assert (Iz : In z (e :: m ++ [z])) by (right; apply in_app_iff; cbn; auto).
    assert (Nze : z <> e) by (intros ->; apply NoDup_cons_iff in NDr; apply (proj1 NDr), in_app_iff; cbn; auto).
    assert (Rlt : forall g, In g (ring T) -> (g < length h)%nat) by (intros g Hg; apply (live_lt (proj1 (Hfac g Hg)))).
    (* the facets that stay *)
    assert (Fr : forall g, In g (e :: m ++ [z]) -> exists gy, live h' g gy /\ fp1 gy = fp1 (facAt h g) /\ fp2 gy = fp2 (facAt h g) /\ fsee gy = fsee (facAt h g) /\ (g <> z -> fnext gy = fnext (facAt h g)) /\ (g <> e -> fprev gy = fprev (facAt h g))).
    { intros g Hg. assert (Hr : In g (ring T)) by (apply Rin; auto). pose proof (proj1 (Hfac g Hr)) as Lg. destruct (Nat.eq_dec g z) as [->|Ng]; [|destruct (Nat.eq_dec g e) as [->|Ng']].
      - pose proof (t_z G Lg) as L'. eexists. split; [exact L'|]. cbn. repeat split; auto. intros X; congruence.
      - pose proof (t_e G Lg) as L'. eexists. split; [exact L'|]. cbn. repeat split; auto. intros X; congruence.
      - exists (facAt h g). split; [|auto]. unfold live. rewrite (t_old G); [exact Lg|apply Rlt; auto|]. intros [X|X]; [congruence|]. apply in_app_iff in X. destruct X as [X|[X|[]]]; [apply (NDx g); auto|congruence]. }
    assert (Fe : forall g, In g (e :: m ++ [z]) -> edge (facAt h' g) = edge (facAt h g)). { intros g Hg. destruct (Fr g Hg) as (gy & L' & A & B & _). rewrite (facAt_live L'). unfold H2IncSeg.edge. rewrite A, B. auto. }
    assert (Es : forall l, (forall g, In g l -> In g (e :: m ++ [z])) -> edges h' l = edges h l). { intros l Hl. unfold edges. apply map_ext_in. intros g Hg. apply Fe. auto. }
    assert (Eo : forall j, (j < 4)%nat -> j <> k -> edges h' (T j) = edges h (T j)). { intros j J N. apply Es. intros g Hg. rewrite <- (d_rest D). rewrite !in_app_iff. right. left. apply in_app_iff. apply (d_out D). eauto. }
    destruct (t_1 G) as (Q1 & L1 & S1). destruct (t_2 G) as (Q2 & L2 & S2). 
    change (live h' id1 (Fac (fp1 x) i z id2 Q1 None)) in L1. change (live h' id2 (Fac i (fp1 y) id1 e Q2 None)) in L2.
    change (forall q, In q Q1 -> nth_error see' q = Some (Some id1)) in S1. change (forall q, In q Q2 -> nth_error see' q = Some (Some id2)) in S2.
    assert (Rz : v <> []) by (apply (g_ne Sg)). assert (Hs : In (hd 0%nat v) v) by (destruct v; [congruence|cbn; auto]).
    (* the new side *)
    destruct (@sideK_ins k (cor k) (cor (S k)) (map (fun g => edge (facAt h g)) l1) (map (fun g => edge (facAt h g)) v) (map (fun g => edge (facAt h g)) l2) (pnt i) Sd) as (a & b & C1 & Cv & C2 & Sd' & In' & InP & Hid).
    { destruct v; [congruence|discriminate]. }
    { apply box; auto. }
    { intros r Hr. apply in_map_iff in Hr. destruct Hr as (g & <- & Hg). apply (d_vis D _ Hg). }
    { intros r Hr. apply in_map_iff in Hr. destruct Hr as (g & <- & Hg). apply (d_not D g). rewrite !in_app_iff. auto. }
    { intros r Hr. apply in_map_iff in Hr. destruct Hr as (g & <- & Hg). apply (d_not D g). rewrite !in_app_iff. auto. }
    destruct (seg_ends Sg) as (x' & y' & wl & Lx' & Ly' & Ex & Lw & Ew & Ep & _). rewrite (live_fun Lx' Lx) in *. rewrite (live_fun Ly' Ly) in *. clear x' y' Lx' Ly'.
    assert (NEm : map (fun g => edge (facAt h g)) v <> []) by (destruct v; [congruence|discriminate]).
    assert (Ea : a = pnt (fp1 x)). { rewrite (@chain_hd _ _ _ Cv NEm (edge (facAt h 0%nat))). rewrite (map_hd (fun g => edge (facAt h g))) by auto. rewrite (facAt_live Lx). reflexivity. }
    assert (Eb : b = pnt (fp1 y)). { rewrite (@chain_last _ _ _ Cv NEm (edge (facAt h 0%nat))). rewrite (map_last (fun g => edge (facAt h g))). rewrite (facAt_live Lw). cbn. rewrite Ep. reflexivity. }
    rewrite Ea, Eb in *. clear a b Ea Eb.
    assert (En : edges h' (l1 ++ [id1; id2] ++ l2) = map (fun g => edge (facAt h g)) l1 ++ (pnt (fp1 x), pnt i) :: (pnt i, pnt (fp1 y)) :: map (fun g => edge (facAt h g)) l2).
    { unfold edges. rewrite !map_app. f_equal; [apply (Es l1); intros g Hg; rewrite <- (d_rest D), !in_app_iff; auto|]. cbn [map app]. rewrite (facAt_live L1), (facAt_live L2). f_equal. f_equal. apply (Es l2). intros g Hg; rewrite <- (d_rest D), !in_app_iff; auto. }
    assert (Eold : edges h (T k) = map (fun g => edge (facAt h g)) l1 ++ map (fun g => edge (facAt h g)) v ++ map (fun g => edge (facAt h g)) l2) by (rewrite (d_T D); unfold edges; rewrite !map_app; auto).
    assert (Sk : forall l, setS T k l k = l) by (intros l; unfold setS; rewrite Nat.eqb_refl; auto).
    assert (So : forall l j, j <> k -> setS T k l j = T j) by (intros l j N; unfold setS; destruct (Nat.eqb_spec j k); [congruence|auto]).
    (* sides of a point *)
    assert (Iall : forall q j, (j < 4)%nat -> inner (edges h (T j)) (pnt q) -> In (pnt q) V -> inner (edges h' (setS T k (l1 ++ [id1; id2] ++ l2) j)) (pnt q)).
    { intros q j J Iq Vq. destruct (Nat.eq_dec j k) as [->|N]; [|rewrite So, Eo by auto; auto]. rewrite Sk, En. apply InP; [apply box; auto|]. rewrite <- Eold. auto. }
    assert (Qv : forall q, In q (seenBy h v) -> exists g, In g v /\ nth_error see q = Some (Some g)).
    { intros q Hq. apply in_seenBy in Hq. destruct Hq as (g & Hg & Hq). exists g. split; auto. apply Hfac; auto. apply Rin; auto. }
    assert (Qo : forall q g, In q (seenBy h v) -> nth_error see q = Some (Some g) -> In (pnt q) V /\ In g v /\ 0 < arE (edge (facAt h g)) (pnt q) /\ forall j, (j < 4)%nat -> j <> k -> inner (edges h (T j)) (pnt q)).
    { intros q g Hq Sq. destruct (Qv q Hq) as (g' & Hg & Sq'). rewrite Sq in Sq'. injection Sq' as <-. destruct (v_see I _ Sq) as (k' & gx & K' & Hg' & Lg & _ & Vg & Oth).
      split; [apply pnt_in; eapply see_lt; eauto|]. split; auto. split; [rewrite (facAt_live Lg); auto|].
      destruct (Nat.eq_dec k' k) as [->|N]; auto. exfalso. apply (NDx g Hg). rewrite <- (d_rest D), !in_app_iff. right. left. apply in_app_iff. apply (d_out D). eauto. }
    assert (Notv : forall q g, nth_error see q = Some (Some g) -> ~ In q (seenBy h v) -> ~ In g v).
    { intros q g Sq N Hg. apply N. destruct (v_see I _ Sq) as (k' & gx & _ & _ & Lg & Hq & _). apply in_seenBy. exists g. split; auto. rewrite (facAt_live Lg). auto. }
    constructor.
    - rewrite (t_slen G). apply (v_len I).
    - rewrite (d_set D). replace (u ++ (l1 ++ [id1; id2] ++ l2) ++ w) with ((u ++ l1) ++ ([id1; id2] ++ l2 ++ w)) by (rewrite <- !app_assoc; reflexivity). apply (@cyc_rot h' ([id1; id2] ++ l2 ++ w) (u ++ l1)).
      replace (([id1; id2] ++ l2 ++ w) ++ u ++ l1) with (id1 :: id2 :: e :: m ++ [z]) by (rewrite <- (d_rest D), <- !app_assoc; reflexivity).
      unfold cyc. cbn [firstn app]. rewrite !path_cons. split; [|split].
      + do 2 eexists. split; [exact L1|]. split; [exact L2|]. auto.
      + destruct (Fr e Ie) as (ey & Le & A & _). pose proof (t_e G Ly) as Le'. do 2 eexists. split; [exact L2|]. split; [exact Le'|]. cbn. auto.
      + rewrite <- app_assoc. cbn [app]. change (e :: m ++ [z; id1]) with ((e :: m) ++ z :: [id1]). apply path_app. split.
        * apply (@path_frame h h' e z).
          -- pose proof (d_cyc D) as Cy. unfold cyc in Cy. apply path_left in Cy. apply path_right in Cy. exact Cy.
          -- cbn [app tl]. intros g Hg ->. apply NoDup_cons_iff in NDr. apply (proj1 NDr). exact Hg.
          -- rewrite removelast_last. intros g Hg ->. change (e :: m ++ [z]) with ((e :: m) ++ [z]) in NDr. apply NoDup_remove in NDr. rewrite app_nil_r in NDr. apply (proj2 NDr). auto.
          -- intros g gx Hg Lg. destruct (Fr g Hg) as (gy & A & B & C & _ & E1 & E2). rewrite (facAt_live Lg) in *. eauto 7.
        * rewrite path_cons. split; [|exact Logic.I]. destruct (seg_live Sg (f := z)) as (zx & Lz); [left; auto|]. pose proof (t_z G Lz) as Lz'. do 2 eexists. split; [exact Lz'|]. split; [exact L1|]. cbn. split; auto. split; auto.
          pose proof (g_path Sg) as P. destruct v as [|s v']; [congruence|]. cbn [app] in P. rewrite path_cons in P. destruct P as ((p1 & p2' & P1 & P2 & _ & _ & P3) & _). rewrite (live_fun Lz P1), (live_fun Lx P2). exact P3.
    - rewrite (d_set D). apply (Permutation_NoDup (l := [id1; id2] ++ (e :: m ++ [z]))).
      + rewrite <- (d_rest D). rewrite <- !app_assoc.
        apply Permutation_trans with ((u ++ l1) ++ ([id1; id2] ++ l2 ++ w)); [|rewrite <- !app_assoc; apply Permutation_refl].
        apply Permutation_trans with (([id1; id2] ++ l2 ++ w) ++ (u ++ l1)); [rewrite <- !app_assoc; apply Permutation_refl|apply Permutation_app_comm].
      + assert (B : forall g, In g (e :: m ++ [z]) -> (g < length h)%nat) by (intros g Hg; apply Rlt, Rin; auto). cbn [app]. constructor; [|constructor; auto].
        * intros [X|X]; [unfold id1, id2 in X; lia|]. apply B in X. unfold id1 in X. lia.
        * intros X. apply B in X. unfold id2 in X. lia.
    - intros g Hg. rewrite (d_set D), !in_app_iff in Hg.
      assert (X : g = id1 \/ g = id2 \/ In g (e :: m ++ [z])). { rewrite <- (d_rest D), !in_app_iff. cbn [In] in Hg. clear - Hg. intuition auto. }
      destruct X as [->|[->|X]].
      + eexists. split; [exact L1|]. split; [|exact S1]. destruct (Hfac (hd 0%nat v)) as (_ & (W & _) & _); [apply Rin; auto|]. rewrite (facAt_live Lx) in W. split; auto.
      + eexists. split; [exact L2|]. split; [|exact S2]. destruct (Hfac e) as (_ & (W & _) & _); [apply Rin; auto|]. rewrite (facAt_live Ly) in W. split; auto.
      + destruct (Fr g X) as (gy & Lg & A & B & C & _). destruct (Hfac g) as (Lg0 & (W1 & W2) & Q); [apply Rin; auto|]. exists gy. split; auto. split; [split; rewrite ?A, ?B; auto|].
        rewrite C. intros q Hq. pose proof (Q q Hq) as Sq. rewrite (t_keep G); auto.
        * apply nth_error_Some. congruence.
        * intros Hv. destruct (Qv q Hv) as (g' & Hg' & Sq'). rewrite Sq in Sq'. injection Sq' as <-. apply (NDx g); auto.
    - intros g gx Lg. destruct (in_dec Nat.eq_dec g v) as [Hv|Hv]; [unfold live in Lg; rewrite (t_gone G _ Hv) in Lg; discriminate|].
      destruct (Nat.eq_dec g z) as [->|Nz]; [destruct (Hfac z) as (Lg0 & _); [apply Rin; auto|]; rewrite (live_fun Lg (t_z G Lg0)); apply (v_tok I Lg0)|].
      destruct (Nat.eq_dec g e) as [->|Ne]; [destruct (Hfac e) as (Lg0 & _); [apply Rin; auto|]; rewrite (live_fun Lg (t_e G Lg0)); apply (v_tok I Lg0)|].
      pose proof (live_lt Lg) as Lt. rewrite (t_len G) in Lt. destruct (Nat.eq_dec g id1) as [->|N1]; [rewrite (live_fun Lg L1); auto|]. destruct (Nat.eq_dec g id2) as [->|N2]; [rewrite (live_fun Lg L2); auto|].
      unfold live in Lg. rewrite (t_old G) in Lg; [apply (v_tok I Lg)|unfold id1, id2 in *; lia|]. intros [X|X]; [congruence|]. apply in_app_iff in X. destruct X as [X|[X|[]]]; [auto|congruence].
    - intros j J. destruct (Nat.eq_dec j k) as [->|N]; [|rewrite So, Eo by auto; apply (v_side I J)]. rewrite Sk, En. split; [destruct l1; discriminate|exact Sd'].
    - intros q g Sq. destruct (in_dec Nat.eq_dec q (seenBy h v)) as [Hq|Hq].
      + destruct (Qv q Hq) as (g0 & Hg0 & Sq0). destruct (Qo q g0 Hq Sq0) as (Pq & _ & _ & Oth).
        destruct (t_new G _ Hq Sq) as ([(Eg & Vg)|(Eg & Vg)] & Hin); [change (g = id1) in Eg|change (g = id2) in Eg]; rewrite Eg in *; clear Eg.
        * exists k. eexists. split; auto. rewrite Sk. split; [rewrite !in_app_iff; cbn; auto|]. split; [exact L1|]. split; [apply Hin; auto|]. split; [exact Vg|]. intros j J N. rewrite So, Eo by auto. auto.
        * exists k. eexists. split; auto. rewrite Sk. split; [rewrite !in_app_iff; cbn; auto|]. split; [exact L2|]. split; [apply Hin; auto|]. split; [exact Vg|]. intros j J N. rewrite So, Eo by auto. auto.
      + assert (Lq : (q < length see)%nat) by (rewrite <- (t_slen G); apply nth_error_Some; congruence). rewrite (t_keep G Lq Hq) in Sq. pose proof (@see_lt V cor h see T q _ I Sq) as Lq'. pose proof (pnt_in V Lq') as Pq.
        pose proof (Notv q g Sq Hq) as Ng. destruct (v_see I _ Sq) as (k' & gx & K' & Hg & Lg & Hin & Vg & Oth).
        assert (Rg : In g (e :: m ++ [z])) by (assert (X : In g (ring T)) by (apply in_ring; eauto); apply Rin in X; destruct X; [contradiction|auto]).
        destruct (Fr g Rg) as (gy & Lg' & A & B & C & _). exists k', gy. split; auto. split; [destruct (Nat.eq_dec k' k) as [->|N]; [|rewrite So by auto; auto]; rewrite Sk; rewrite (d_T D) in Hg; rewrite !in_app_iff in *; tauto|].
        split; auto. rewrite (facAt_live Lg) in *. split; [rewrite C; auto|]. split; [unfold H2IncSeg.edge in *; rewrite A, B; auto|]. intros j J N. apply Iall; auto.
    - intros q Sq j J. destruct (in_dec Nat.eq_dec q (seenBy h v)) as [Hq|Hq].
      + destruct (Qv q Hq) as (g0 & Hg0 & Sq0). destruct (Qo q g0 Hq Sq0) as (Pq & _ & Vg & Oth). destruct (Nat.eq_dec j k) as [->|N]; [|rewrite So, Eo by auto; auto].
        rewrite Sk, En. destruct (t_none G _ Hq Sq) as (N1 & N2). apply (Hid (pnt q) (edge (facAt h g0))); auto. apply in_map_iff. eauto.
      + assert (Lq : (q < length see)%nat) by (rewrite <- (t_slen G); apply nth_error_Some; congruence). rewrite (t_keep G Lq Hq) in Sq. pose proof (@see_lt V cor h see T q _ I Sq) as Lq'. pose proof (pnt_in V Lq') as Pq.
        apply Iall; auto. apply (v_none I _ Sq J).
  Qed.
End Step.
