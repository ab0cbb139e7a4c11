(** The list of facets: paths, the facets a point sees and their neighbours. *)
From Coq Require Import Reals Lra List Bool Arith Lia Permutation.
From Verif Require Import Base Num Hull2dModel H2IncModel H2IncGeom H2IncSide H2IncTok.
Set Implicit Arguments.

Definition link (h : heap) (a b : nat) : Prop := exists x y, live h a x /\ live h b y /\ fnext x = b /\ fprev y = a /\ fp2 x = fp1 y.
Fixpoint path (h : heap) (l : list nat) : Prop :=
  match l with [] => True | a :: l' => match l' with [] => True | b :: _ => link h a b /\ path h l' end end.
Lemma path_cons h a b l : path h (a :: b :: l) <-> link h a b /\ path h (b :: l).
Proof. reflexivity. Qed.
Lemma path_app h l a m : path h (l ++ a :: m) <-> path h (l ++ [a]) /\ path h (a :: m).
Proof.
  induction l as [|x l IH]; [cbn [app]; split; [intros H; split; [exact I|auto]|tauto]|]. destruct l as [|y l].
  - cbn [app]. rewrite !path_cons. cbn [path]. tauto.
  - cbn [app] in *. rewrite !path_cons. rewrite IH. tauto.
Qed.
Lemma path_left h l m : path h (l ++ m) -> path h l.
Proof.
  revert m. induction l as [|x l IH]; intros m H; [exact I|]. destruct l as [|y l]; [exact I|]. cbn [app] in *. rewrite path_cons in *. destruct H as (H1 & H2). split; auto.
  apply (IH m). exact H2.
Qed.
Lemma path_right h l m : path h (l ++ m) -> path h m.
Proof. induction l as [|x l IH]; auto. cbn [app]. intros H. apply IH. destruct (l ++ m); [exact I|apply H]. Qed.
Definition cyc (h : heap) (R : list nat) : Prop := path h (R ++ firstn 1 R).
Lemma cyc_rot h a b : cyc h (a ++ b) -> cyc h (b ++ a).
Proof.
  unfold cyc. destruct a as [|x a]; [rewrite app_nil_r; auto|]. destruct b as [|y b]; [rewrite app_nil_r; auto|].
  cbn [app firstn]. intros H. rewrite <- app_assoc in H. cbn [app] in H. change (x :: a ++ y :: b ++ [x]) with ((x :: a) ++ y :: (b ++ [x])) in H.
  apply path_app in H. destruct H as (H1 & H2). rewrite <- app_assoc. cbn [app]. change (y :: b ++ x :: a ++ [y]) with ((y :: b) ++ x :: (a ++ [y])).
  apply path_app. auto.
Qed.
Lemma path_frame h h' e z l : path h l -> (forall f, In f (tl l) -> f <> e) -> (forall f, In f (removelast l) -> f <> z) ->
  (forall f x, In f l -> live h f x -> exists y, live h' f y /\ fp1 y = fp1 x /\ fp2 y = fp2 x /\ (f <> z -> fnext y = fnext x) /\ (f <> e -> fprev y = fprev x)) -> path h' l.
Proof.
  induction l as [|a l IH]; intros P N1 N2 F; [exact I|]. destruct l as [|b l]; [exact I|]. rewrite path_cons in *. destruct P as ((x & y & Lx & Ly & E1 & E2 & E3) & P). split.
  - destruct (F a x (or_introl eq_refl) Lx) as (x' & Lx' & A1 & A2 & A3 & A4). destruct (F b y (or_intror (or_introl eq_refl)) Ly) as (y' & Ly' & B1 & B2 & B3 & B4).
    exists x', y'. split; auto. split; auto. rewrite A2, B1, A3, B4; auto; [apply N1; cbn; auto|apply N2; cbn; auto].
  - apply IH; auto.
    + intros f Hf. apply N1. cbn [tl] in *. right. exact Hf.
    + intros f Hf. apply N2. change (removelast (a :: b :: l)) with (a :: removelast (b :: l)). right. exact Hf.
    + intros f x' Hf. apply F. right. auto.
Qed.

Lemma fresh (l : list nat) : exists b, ~ In b l.
Proof.
  assert (X : exists b, forall f, In f l -> (f < b)%nat).
  { induction l as [|a l (b & Hb)]; [exists 0%nat; intros f []|exists (S (max a b)); intros f [<-|Hf]; [lia|apply Hb in Hf; lia]]. }
  destruct X as (b & Hb). exists b. intros H. apply Hb in H. lia.
Qed.

Open Scope R_scope.
Section Seg.
  Variable V : list p2.
  Variable eps : R.
  Hypothesis eps0 : 0 <= eps.
  Hypothesis sep : forall a b c, In a V -> In b V -> In c V -> 0 < ar a b c -> eps < ar a b c.
  Definition pnt (i : nat) : p2 := nth i V (0, 0).
  Definition edge (x : fac) : p2 * p2 := (pnt (fp1 x), pnt (fp2 x)).
  Definition wf (x : fac) : Prop := (fp1 x < length V)%nat /\ (fp2 x < length V)%nat.
  Lemma at_pnt i : (i < length V)%nat -> at_ V i = Ok (pnt i).
  Proof. intros H. unfold at_. rewrite (nth_error_nth' V (0, 0) H). reflexivity. Qed.
  Lemma pnt_in i : (i < length V)%nat -> In (pnt i) V.
  Proof. apply nth_In. Qed.
  Definition vis (x : fac) (p : p2) : bool := Rltb eps (arE (edge x) p).
  Lemma visibleFrom_ok x p : wf x -> @visibleFrom RNum eps V x p = Ok (vis x p).
  Proof.
    intros (A & B). unfold visibleFrom. pose proof (at_pnt A) as EA. pose proof (at_pnt B) as EB.
    etransitivity; [apply (f_equal (fun y => bind y _)); exact EA|]. cbn [bind]. etransitivity; [apply (f_equal (fun y => bind y _)); exact EB|]. reflexivity.
  Qed.
  Lemma vis_true x p : wf x -> In p V -> (vis x p = true <-> 0 < arE (edge x) p).
  Proof.
    intros (A & B) I. unfold vis. rewrite Rltb_true. split; [lra|]. intros H. unfold arE, edge in *. cbn [fst snd] in *. apply sep; auto; apply pnt_in; auto.
  Qed.
  Lemma vis_false x p : wf x -> In p V -> (vis x p = false <-> arE (edge x) p <= 0).
  Proof.
    intros W I. pose proof (@vis_true x p W I) as H. destruct (vis x p); split; intros X; try discriminate; auto.
    - exfalso. assert (0 < arE (edge x) p) by (apply H; auto). lra.
    - apply Rnot_lt_le. intros Y. apply H in Y. discriminate.
  Qed.

  (** the facets v that p sees between z and e, which it does not see *)
  Record seg (h : heap) (p : p2) (z : nat) (v : list nat) (e : nat) : Prop := Seg {
    g_ne : v <> [];
    g_path : path h (z :: v ++ [e]);
    g_nd : NoDup (z :: v ++ [e]);
    g_vis : forall f x, In f v -> live h f x -> wf x /\ vis x p = true;
    g_z : forall x, live h z x -> wf x /\ vis x p = false;
    g_e : forall x, live h e x -> wf x /\ vis x p = false /\ ~ In (fnext x) (v ++ [e]) }.
  Lemma path_live h a l f : path h (a :: l) -> l <> [] -> In f (a :: l) -> exists x, live h f x.
  Proof.
    revert a. induction l as [|b l IH]; intros a P N I; [congruence|]. rewrite path_cons in P. destruct P as ((x & y & Lx & Ly & _) & P).
    destruct I as [<-|I]; [eauto|]. destruct l as [|c l]; [destruct I as [<-|[]]; eauto|]. apply (IH b); auto. discriminate.
  Qed.
  Lemma seg_live h p z v e f : seg h p z v e -> In f (z :: v ++ [e]) -> exists x, live h f x.
  Proof. intros S. apply path_live; [apply (g_path S)|]. destruct v; discriminate. Qed.
  Lemma seg_len h p z v e : seg h p z v e -> (S (S (length v)) <= length h)%nat.
  Proof.
    intros S. assert (L : (length (z :: v ++ [e]) <= length (seq 0 (length h)))%nat).
    { apply NoDup_incl_length; [apply (g_nd S)|]. intros f Hf. destruct (seg_live S Hf) as (x & Lx). apply in_seq. split; [lia|]. apply (live_lt Lx). }
    cbn in L. rewrite app_length, seq_length in L. cbn in L. lia.
  Qed.
  Lemma back_ok h p z v e : seg h p z v e -> forall v1 f v2, v = v1 ++ f :: v2 -> forall fuel, (length v1 < fuel)%nat -> @back RNum eps V fuel h p f = Ok (hd 0%nat v).
  Proof.
    intros S v1. induction v1 as [|g v1 IH] using rev_ind; intros f v2 Ev fuel L.
    - destruct fuel as [|fuel]; [lia|]. pose proof (g_path S) as P. rewrite Ev in P. cbn [app] in P. rewrite path_cons in P. destruct P as ((x & y & Lx & Ly & E1 & E2 & _) & _).
      cbn [back]. rewrite (live_get Ly). cbn [bind]. rewrite E2, (live_get Lx). cbn [bind]. destruct (g_z S Lx) as (W & Vz). rewrite (visibleFrom_ok p W), Vz. cbn [bind]. rewrite Ev. reflexivity.
    - destruct fuel as [|fuel]; [lia|]. rewrite app_length in L. cbn in L.
      assert (P : path h (g :: f :: (v2 ++ [e]))). { pose proof (g_path S) as P. rewrite Ev in P. rewrite <- !app_assoc in P. cbn [app] in P. change (z :: v1 ++ g :: f :: v2 ++ [e]) with ((z :: v1) ++ g :: f :: v2 ++ [e]) in P. apply path_right in P. exact P. }
      rewrite path_cons in P. destruct P as ((x & y & Lx & Ly & E1 & E2 & _) & _).
      cbn [back]. rewrite (live_get Ly). cbn [bind]. rewrite E2, (live_get Lx). cbn [bind].
      assert (Ig : In g v) by (rewrite Ev; rewrite !in_app_iff; cbn; auto). destruct (g_vis S Ig Lx) as (W & Vg). rewrite (visibleFrom_ok p W), Vg. cbn [bind].
      apply (IH g (f :: v2)); [rewrite Ev, <- app_assoc; reflexivity|lia].
  Qed.
  Lemma fwd_some h p z v e s : seg h p z v e -> forall v2 v1, v = v1 ++ v2 -> v1 <> [] -> forall fuel, (length v2 < fuel)%nat ->
    @fwd RNum eps V fuel h p (hd 0%nat v) (hd e v2) (Some s) = Ok (Some (s, e)).
  Proof.
    intros S v2. induction v2 as [|g v2 IH]; intros v1 Ev N fuel L; (destruct fuel as [|fuel]; [cbn in L; lia|]); cbn [fwd hd].
    - destruct (seg_live S (f := e)) as (x & Lx); [right; apply in_app_iff; cbn; auto|]. rewrite (live_get Lx). cbn [bind]. destruct (g_e S Lx) as (W & Vz & _).
      rewrite (visibleFrom_ok p W), Vz. reflexivity.
    - assert (Ig : In g v) by (rewrite Ev; apply in_app_iff; cbn; auto).
      assert (P : path h (g :: v2 ++ [e])). { pose proof (g_path S) as P. rewrite Ev, <- app_assoc in P. change (z :: v1 ++ (g :: v2) ++ [e]) with ((z :: v1) ++ (g :: v2 ++ [e])) in P. apply path_right in P. exact P. }
      assert (Nx : exists x, live h g x /\ fnext x = hd e v2).
      { destruct v2 as [|b v2]; cbn [app] in P; rewrite path_cons in P; destruct P as ((x & y & Lx & Ly & E1 & _) & _); exists x; auto. }
      destruct Nx as (x & Lx & Ex). rewrite (live_get Lx). cbn [bind]. destruct (g_vis S Ig Lx) as (W & Vg). rewrite (visibleFrom_ok p W), Vg. cbn [bind]. rewrite Ex.
      assert (Nh : hd e v2 <> hd 0%nat v).
      { pose proof (g_nd S) as ND. apply NoDup_cons_iff in ND. destruct ND as (_ & ND). rewrite Ev in *. destruct v1 as [|a v1]; [congruence|]. cbn [app hd] in *. apply NoDup_cons_iff in ND. destruct ND as (ND & _).
        intros E. apply ND. rewrite <- E. rewrite !in_app_iff. destruct v2 as [|b v2]; cbn; auto. }
      destruct (Nat.eqb_spec (hd e v2) (hd 0%nat v)) as [E|_]; [contradiction|]. apply (IH (v1 ++ [g])); [rewrite Ev, <- app_assoc; reflexivity|destruct v1; discriminate|cbn in L; lia].
  Qed.
  Lemma findVisible_ok h p z v e f : seg h p z v e -> In f v -> @findVisible RNum eps V h f p = Ok (Some (hd 0%nat v, e)).
  Proof.
    intros S I. pose proof (seg_len S) as L. apply in_split in I. destruct I as (v1 & v2 & Ev). unfold findVisible. 
    assert (Lv : (length v1 < length h)%nat) by (rewrite Ev, app_length in L; cbn in L; lia). rewrite (back_ok S v1 f v2 Ev Lv). cbn [bind].
    pose proof (g_ne S) as NE. destruct v as [|s v'] eqn:Evs; [congruence|]. cbn [hd]. destruct (length h) as [|fuel] eqn:Lh; [lia|]. cbn [fwd].
    assert (P : path h (s :: v' ++ [e])) by (pose proof (g_path S) as P; exact (path_right h [z] (s :: v' ++ [e]) P)).
    assert (Nx : exists x, live h s x /\ fnext x = hd e v').
    { destruct v' as [|b v']; cbn [app] in P; rewrite path_cons in P; destruct P as ((x & y & Lx & Ly & E1 & _) & _); exists x; auto. }
    destruct Nx as (x & Lx & Ex). rewrite (live_get Lx). cbn [bind]. destruct (g_vis S (or_introl eq_refl) Lx) as (W & Vg). rewrite (visibleFrom_ok p W), Vg. cbn [bind]. rewrite Ex.
    assert (Nh : hd e v' <> s).
    { pose proof (g_nd S) as ND. apply NoDup_cons_iff in ND. destruct ND as (_ & ND). cbn [app] in ND. apply NoDup_cons_iff in ND. destruct ND as (ND & _).
      intros E. apply ND. rewrite <- E. rewrite !in_app_iff. destruct v' as [|b v']; cbn; auto. }
    destruct (Nat.eqb_spec (hd e v') s) as [E|_]; [contradiction|]. apply (@fwd_some h p z (s :: v') e s S v' [s]); [reflexivity|discriminate|cbn in L; lia].
  Qed.
  Lemma walk_ok h : forall l a stop fuel, path h (a :: l) -> (forall f, In f l -> f <> stop) -> (exists x, live h (last l a) x /\ fnext x = stop) -> (length l < fuel)%nat -> walk fuel h a stop = Ok (a :: l).
  Proof.
    induction l as [|b l IH]; intros a stop fuel P N (x & Lx & Ex) F; (destruct fuel as [|fuel]; [cbn in F; lia|]); cbn [walk].
    - cbn [last] in Lx. rewrite (live_get Lx). cbn [bind]. rewrite Ex, Nat.eqb_refl. reflexivity.
    - rewrite path_cons in P. destruct P as ((u & w & Lu & Lw & E1 & _) & P). rewrite (live_get Lu). cbn [bind]. rewrite E1.
      destruct (Nat.eqb_spec b stop) as [E|_]; [exfalso; apply (N b); cbn; auto|]. rewrite (IH b stop fuel); auto; [intros f Hf; apply N; right; auto| |cbn in F; lia].
      exists x. split; auto. destruct l as [|c l]; auto. cbn [last] in *. clear - Lx. revert c Lx. induction l as [|d l IH]; intros c; auto. intros Lx. cbn [last] in *. apply IH. destruct l; auto.
  Qed.
  Lemma seg_ends h p z v e : seg h p z v e -> exists x y w, live h (hd 0%nat v) x /\ live h e y /\ fprev x = z /\ live h (last v 0%nat) w /\ fnext w = e /\ fp2 w = fp1 y /\ fprev y = last v 0%nat.
  Proof.
    intros S. pose proof (g_path S) as P. pose proof (g_ne S) as NE. destruct (exists_last NE) as (v' & l & Ev).
    assert (P1 : path h (l :: [e])). { rewrite Ev, <- app_assoc in P. change (z :: v' ++ [l] ++ [e]) with ((z :: v') ++ [l; e]) in P. apply path_right in P. exact P. }
    rewrite path_cons in P1. destruct P1 as ((w & y & Lw & Ly & E1 & E2 & E3) & _).
    assert (P2 : exists x, live h (hd 0%nat v) x /\ fprev x = z).
    { destruct v as [|s v2]; [congruence|]. cbn [app] in P. rewrite path_cons in P. destruct P as ((a & b & La & Lb & _ & Eb & _) & _). exists b. auto. }
    destruct P2 as (x & Lx & Ex). exists x, y, w. rewrite Ev, last_last. rewrite Ev in Lx. repeat split; auto.
  Qed.
  Lemma walk_seg h p z v e : seg h p z v e -> walk (length h) h (hd 0%nat v) e = Ok v.
  Proof.
    intros S. pose proof (seg_len S) as L. pose proof (g_ne S) as NE. destruct (seg_ends S) as (x & y & w & _ & _ & _ & Lw & Ew & _).
    pose proof (g_nd S) as ND. pose proof (g_path S) as P. destruct v as [|s v']; [congruence|]. cbn [hd]. apply walk_ok.
    - apply (path_right h [z]) in P. apply (path_left h (s :: v') [e]). exact P.
    - intros f Hf E. subst f. apply NoDup_cons_iff in ND. destruct ND as (_ & ND). change ((s :: v') ++ [e]) with (s :: (v' ++ [e])) in ND. apply NoDup_cons_iff in ND. destruct ND as (_ & ND). apply NoDup_remove_2 in ND.
      apply ND. rewrite app_nil_r. auto.
    - exists w. split; auto. destruct v' as [|b v']; auto. cbn [last] in Lw |- *. clear - Lw. revert b Lw. induction v' as [|c v' IH]; intros b Lw; auto. cbn [last] in *. apply IH. destruct v'; auto.
    - cbn in L. lia.
  Qed.
  Lemma zone_seg h p z v e : seg h p z v e -> exists y, live h e y /\ walk (length h) h z (fnext y) = Ok (z :: v ++ [e]).
  Proof.
    intros S. pose proof (seg_len S) as L. destruct (seg_live S (f := e)) as (y & Ly); [right; apply in_app_iff; cbn; auto|]. exists y. split; auto. destruct (g_e S Ly) as (_ & _ & N).
    apply walk_ok; [apply (g_path S)| | |rewrite app_length; cbn; lia].
    - intros f Hf E. subst f. contradiction.
    - exists y. rewrite last_last. auto.
  Qed.
  Lemma visOf_ok s i f z v e : (i < length V)%nat -> nth_error (ssee s) i = Some (Some f) -> seg (sh s) (pnt i) z v e -> In f v -> @visOf RNum eps V s i = Ok (Some (hd 0%nat v, e)).
  Proof.
    intros Li Sf S I. unfold visOf, seeFacet. rewrite Sf. cbn [bind]. etransitivity; [apply (f_equal (fun y => bind y _)); exact (at_pnt Li)|]. cbn [bind]. apply (@findVisible_ok _ _ _ _ _ f S I).
  Qed.
  Lemma zone_ok s i f z v e : (i < length V)%nat -> nth_error (ssee s) i = Some (Some f) -> seg (sh s) (pnt i) z v e -> In f v -> @zone RNum eps V s i = Ok (i, z :: v ++ [e]).
  Proof.
    intros Li Sf S I. unfold zone. rewrite (@visOf_ok s i f z v e Li Sf S I). cbn [bind]. destruct (seg_ends S) as (x & y & w & Lx & Ly & Ex & _). rewrite (live_get Lx), (live_get Ly). cbn [bind]. rewrite Ex.
    destruct (zone_seg S) as (y' & Ly' & E). rewrite (live_fun Ly Ly'), E. reflexivity.
  Qed.
  (** a segment does not change when other facets do *)
  Lemma seg_frame h h' p z v e : seg h p z v e -> (forall f, In f (z :: v ++ [e]) -> nth_error h' f = nth_error h f) -> seg h' p z v e.
  Proof.
    intros S F. assert (Fl : forall f x, In f (z :: v ++ [e]) -> live h' f x -> live h f x) by (unfold live; intros f x Hf; rewrite F; auto).
    constructor; [apply (g_ne S)| |apply (g_nd S)| | |].
    - destruct (fresh (z :: v ++ [e])) as (b & Hb). apply (@path_frame h h' b b); [apply (g_path S)| | |].
      + intros f Hf ->. apply Hb. right. exact Hf.
      + intros f Hf ->. apply Hb. clear - Hf. induction (z :: v ++ [e]) as [|a l IH]; [destruct Hf|]. cbn [removelast] in Hf. destruct l; [destruct Hf|]. destruct Hf as [<-|Hf]; [left; auto|right; auto].
      + intros f x Hf Lx. exists x. split; auto. unfold live. rewrite F; auto.
    - intros f x Hf Lx. apply (g_vis S Hf). apply Fl; auto. right. apply in_app_iff. auto.
    - intros x Lx. apply (g_z S). apply Fl; auto. left; auto.
    - intros x Lx. apply (g_e S). apply Fl; auto. right. apply in_app_iff. cbn. auto.
  Qed.
End Seg.
