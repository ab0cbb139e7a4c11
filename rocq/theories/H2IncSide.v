(** The four sides: the geometry of one side turned by quarter turns, the four
    first edges, extreme points. *)
From Coq Require Import Reals Lra Psatz List Bool Sorted.
From Verif Require Import Base Num H2IncModel H2IncGeom.
Set Implicit Arguments.
Open Scope R_scope.

Definition rot (p : p2) : p2 := (- snd p, fst p).
Fixpoint rk (k : nat) (p : p2) : p2 := match k with O => p | S k' => rot (rk k' p) end.
Definition rE (k : nat) (e : p2 * p2) : p2 * p2 := (rk k (fst e), rk k (snd e)).
Lemma rk_ar k a b c : ar (rk k a) (rk k b) (rk k c) = ar a b c.
Proof. induction k as [|k IH]; auto. rewrite <- IH. cbn [rk]. unfold rot. cxs. ring. Qed.
Lemma rE_ar k e q : arE (rE k e) (rk k q) = arE e q.
Proof. apply rk_ar. Qed.
Lemma rk_inj k a b : rk k a = rk k b -> a = b.
Proof.
  induction k as [|k IH]; auto. cbn [rk]. unfold rot. intros E. apply IH. injection E as E1 E2.
  destruct (rk k a), (rk k b); cbn in *. f_equal; lra.
Qed.
Lemma rE_chain k A l B : chain (rk k A) (map (rE k) l) (rk k B) <-> chain A l B.
Proof.
  revert A. induction l as [|e l IH]; intros A; cbn.
  - split; [apply rk_inj|intros ->; auto].
  - rewrite IH. split; intros (E & H); split; auto; [apply rk_inj in E; auto|rewrite E; auto].
Qed.

Definition sideK (k : nat) (A B : p2) (l : list (p2 * p2)) : Prop := side (rk k A) (rk k B) (map (rE k) l).
Definition boxK (k : nat) (A B q : p2) : Prop := fst (rk k A) <= fst (rk k q) /\ snd (rk k q) <= snd (rk k B).
Lemma sideK_chain k A B l : sideK k A B l -> chain A l B.
Proof. intros (C & _). apply rE_chain in C. auto. Qed.
Lemma inner_rk k l q : inner (map (rE k) l) (rk k q) <-> inner l q.
Proof.
  unfold inner. split; intros H e He.
  - rewrite <- (rE_ar k). apply H. apply in_map. auto.
  - apply in_map_iff in He. destruct He as (f & <- & Hf). rewrite rE_ar. auto.
Qed.
Lemma sideK_contig k A B l1 x l2 y l3 z l4 q : sideK k A B (l1 ++ x :: l2 ++ y :: l3 ++ z :: l4) -> 0 < arE x q -> 0 < arE z q -> 0 < arE y q.
Proof.
  unfold sideK. rewrite !map_app. cbn [map]. rewrite !map_app. cbn [map]. rewrite !map_app. cbn [map].
  intros S X Z. rewrite <- (rE_ar k) in *. eapply side_contig; eauto.
Qed.
Theorem sideK_ins k A B l1 v l2 p : sideK k A B (l1 ++ v ++ l2) -> v <> [] -> boxK k A B p ->
  (forall x, In x v -> 0 < arE x p) -> (forall x, In x l1 -> arE x p <= 0) -> (forall x, In x l2 -> arE x p <= 0) ->
  exists a e, chain A l1 a /\ chain a v e /\ chain e l2 B /\ let new := l1 ++ (a, p) :: (p, e) :: l2 in
    sideK k A B new /\ inner new p /\ (forall q, boxK k A B q -> inner (l1 ++ v ++ l2) q -> inner new q) /\
    forall q r, In r v -> 0 < arE r q -> arE (a, p) q <= 0 -> arE (p, e) q <= 0 -> inner new q.
Proof.
  intros S NE (bA & bB) Vis N1 N2. pose proof (sideK_chain S) as C. apply chain_app in C. destruct C as (a & C1 & C). apply chain_app in C. destruct C as (e & Cv & C2).
  exists a, e. split; auto. split; auto. split; auto. cbv zeta.
  assert (Em : map (rE k) (l1 ++ v ++ l2) = map (rE k) l1 ++ map (rE k) v ++ map (rE k) l2) by (rewrite !map_app; auto).
  assert (En : map (rE k) (l1 ++ (a, p) :: (p, e) :: l2) = map (rE k) l1 ++ (rk k a, rk k p) :: (rk k p, rk k e) :: map (rE k) l2) by (rewrite !map_app; auto).
  assert (S' : side (rk k A) (rk k B) (map (rE k) l1 ++ map (rE k) v ++ map (rE k) l2)) by (rewrite <- Em; exact S).
  apply (rE_chain k) in C1, Cv, C2.
  assert (NE' : map (rE k) v <> []) by (destruct v; [congruence|discriminate]).
  assert (Vis' : forall x, In x (map (rE k) v) -> 0 < arE x (rk k p)) by (intros x Hx; apply in_map_iff in Hx; destruct Hx as (y & <- & Hy); rewrite rE_ar; auto).
  assert (N1' : forall x, In x (map (rE k) l1) -> arE x (rk k p) <= 0) by (intros x Hx; apply in_map_iff in Hx; destruct Hx as (y & <- & Hy); rewrite rE_ar; auto).
  assert (N2' : forall x, In x (map (rE k) l2) -> arE x (rk k p) <= 0) by (intros x Hx; apply in_map_iff in Hx; destruct Hx as (y & <- & Hy); rewrite rE_ar; auto).
  split; [|split; [|split]].
  - unfold sideK. rewrite En. eapply ins_side; eauto.
  - apply (inner_rk k). rewrite En. eapply ins_self; eauto.
  - intros q (qA & qB) H. apply (inner_rk k). rewrite En. eapply ins_inner; eauto. apply (inner_rk k) in H. rewrite Em in H. auto.
  - intros q r R Rq Q1 Q2. apply (inner_rk k). rewrite En. refine (@ins_hidden _ _ _ _ _ _ _ _ C1 Cv C2 S' NE' Vis' N1' N2' bA bB (rk k q) (rE k r) (in_map _ _ _ R) _ _ _); [rewrite rE_ar; auto| |].
    + change (arE (rE k (a, p)) (rk k q) <= 0). rewrite rE_ar. auto.
    + change (arE (rE k (p, e)) (rk k q) <= 0). rewrite rE_ar. auto.
Qed.

(** *** The first edges *)
Lemma first_side k A B : boxK k A B A -> boxK k A B B -> sideK k A B [(A, B)].
Proof.
  intros (_ & A2) (B1 & _). split; [cbn; auto|]. cbn [map]. unfold rE. cbn [fst snd].
  destruct (Req_dec (fst (rk k A)) (fst (rk k B))) as [E1|E1]; [destruct (Req_dec (snd (rk k A)) (snd (rk k B))) as [E2|E2]|].
  - right. replace (rk k B) with (rk k A); auto. destruct (rk k A), (rk k B). cbn in *. congruence.
  - left. split; [|repeat constructor]. intros e [<-|[]]. unfold quad. cxs. lra.
  - left. split; [|repeat constructor]. intros e [<-|[]]. unfold quad. cxs. lra.
Qed.
Lemma edge_see A B q : fst A <= fst q -> snd q <= snd B -> fst A <= fst B -> snd A <= snd B -> 0 < ar A B q -> fst q < fst B /\ snd A < snd q.
Proof.
  intros H1 H2 H3 H4 S. cxs. destruct A as [a b], B as [c d], q as [x y]; cbn [fst snd] in *. split; apply Rnot_le_lt; intros X.
  - assert (0 <= (d - b) * (x - c)) by (apply Rmult_le_pos; lra). assert (0 <= (c - a) * (d - y)) by (apply Rmult_le_pos; lra). lra.
  - assert (0 <= (d - b) * (x - a)) by (apply Rmult_le_pos; lra). assert (0 <= (c - a) * (b - y)) by (apply Rmult_le_pos; lra). lra.
Qed.
Lemma edge_seeK k A B q : boxK k A B q -> boxK k A B A -> boxK k A B B -> 0 < ar A B q -> fst (rk k q) < fst (rk k B) /\ snd (rk k A) < snd (rk k q).
Proof. intros (q1 & q2) (_ & A2) (B1 & _) S. rewrite <- (rk_ar k) in S. apply edge_see in S; auto. Qed.
Lemma opposite A B C D q : fst A <= fst q -> snd q <= snd B -> fst A <= fst D -> snd D <= snd A -> snd C <= snd B -> fst B <= fst C ->
  fst A <= fst B -> snd A <= snd B -> fst D <= fst C -> snd D <= snd C -> 0 < ar A B q -> 0 < ar C D q -> False.
Proof.
  intros q1 q2 AD1 AD2 CB1 CB2 AB1 AB2 DC1 DC2 S1 S2. destruct (@edge_see A B q) as (K1 & K2); auto. cxs.
  destruct A as [a b], B as [c d], C as [e f], D as [g h], q as [x y]; cbn [fst snd] in *.
  set (t := (y - b) / (d - b)). assert (D0 : 0 < d - b) by lra. assert (Et : t * (d - b) = y - b) by (unfold t; field; lra).
  assert (T0 : 0 <= t) by (apply Rmult_le_reg_r with (d - b); auto; rewrite Et; lra). assert (T1 : t <= 1) by (apply Rmult_le_reg_r with (d - b); auto; rewrite Et; lra).
  set (mx := a + t * (c - a)). assert (M : x <= mx).
  { apply Rmult_le_reg_l with (d - b); auto. unfold mx. replace ((d - b) * (a + t * (c - a))) with ((d - b) * a + t * (d - b) * (c - a)) by ring. rewrite Et. lra. }
  assert (W1 : 0 <= (e - g) * (b - h) - (f - h) * (a - g)) by (assert (0 <= (e - g) * (b - h)) by (apply Rmult_le_pos; lra); assert (0 <= (f - h) * (g - a)) by (apply Rmult_le_pos; lra); lra).
  assert (W2 : 0 <= (e - g) * (d - f) - (f - h) * (c - e)) by (assert (0 <= (e - g) * (d - f)) by (apply Rmult_le_pos; lra); assert (0 <= (f - h) * (e - c)) by (apply Rmult_le_pos; lra); lra).
  assert (W3 : 0 <= (e - g) * (y - h) - (f - h) * (mx - g)).
  { replace ((e - g) * (y - h) - (f - h) * (mx - g)) with ((1 - t) * ((e - g) * (b - h) - (f - h) * (a - g)) + t * ((e - g) * (d - f) - (f - h) * (c - e))).
    - assert (0 <= (1 - t) * ((e - g) * (b - h) - (f - h) * (a - g))) by (apply Rmult_le_pos; lra). assert (0 <= t * ((e - g) * (d - f) - (f - h) * (c - e))) by (apply Rmult_le_pos; lra). lra.
    - replace y with (b + t * (d - b)) by lra. unfold mx. ring. }
  assert (0 <= (f - h) * (mx - x)) by (apply Rmult_le_pos; lra). lra.
Qed.

(** *** Extreme points *)
Definition ext (P : list p2) (v : p2) : Prop := exists a b, forall w, In w P -> w <> v -> a * fst w + b * snd w < a * fst v + b * snd v.
Lemma find_turn (b : (p2 * p2) -> bool) (l : list (p2 * p2)) : exists l1 l2, l = l1 ++ l2 /\ (forall x, In x l1 -> b x = true) /\ (l2 = [] \/ exists y l', l2 = y :: l' /\ b y = false).
Proof.
  induction l as [|x l (l1 & l2 & E & H1 & H2)]; [exists [], []; cbn; repeat split; auto; intros x []|].
  destruct (b x) eqn:Bx; [exists (x :: l1), l2|exists [], (x :: l)].
  - rewrite E. split; auto. split; auto. intros y [<-|Y]; auto.
  - split; auto. split; [intros y []|]. right. eauto.
Qed.
Lemma side_top A B l g v : side A B l -> quad g -> fst A <= fst v -> snd v <= snd B -> inner l v ->
  exists c, (c = B \/ exists e, In e l /\ fst e = c) /\ cx g (vec c v) <= 0.
Proof.
  intros (C & S) (G1 & G2 & G3) vA vB I. destruct S as [(Q & _)|El].
  - destruct (find_turn (fun e => Rleb 0 (cx g (dir e))) l) as (l1 & l2 & El & H1 & H2). rewrite El in C. apply chain_app in C. destruct C as (c & C1 & C2). exists c. split.
    { destruct l2 as [|y l']; [left; exact C2|right]. exists y. split; [rewrite El; apply in_app_iff; cbn; auto|apply C2]. }
    assert (QI1 : forall x, In x l1 -> In x l) by (intros x Hx; rewrite El; apply in_app_iff; auto).
    assert (Z : l1 = [] /\ c = A \/ exists z, In z l /\ snd z = c /\ cx (dir z) g <= 0).
    { destruct l1 as [|x l1'] eqn:E1; [left; cbn in C1; auto|right]. destruct (@exists_last _ (x :: l1') ltac:(discriminate)) as (l' & z & Ez). exists z.
      rewrite Ez in *. assert (Iz : In z (l' ++ [z])) by (apply in_app_iff; cbn; auto). split; auto. apply chain_app in C1. destruct C1 as (c' & _ & C1 & C3). split; [exact C3|].
      apply H1, Rleb_true in Iz. unfold cx in *. lra. }
    assert (Iz : forall z, In z l -> snd z = c -> cx (dir z) (vec c v) <= 0) by (intros z Hz <-; pose proof (I z Hz); cxs; lra).
    destruct H2 as [E2|(y & l' & E2 & Y)].
    + rewrite E2 in C2. cbn in C2. subst c. destruct Z as [(E1 & EB)|(z & Hz & Sz & Zg)].
      * rewrite EB in vB |- *. unfold cx, vec. cbn. assert (0 <= fst g * (snd A - snd v)) by (apply Rmult_le_pos; lra). assert (0 <= snd g * (fst v - fst A)) by (apply Rmult_le_pos; lra). lra.
      * destruct (Req_dec (cx (dir z) g) 0) as [E0|E0].
        -- apply (@cone_neg (dir z) g (dir z)); auto; try (repeat split; auto; fail); unfold cx in *; lra.
        -- apply (@top_in (dir z)); auto; [lra|cbn; lra].
    + apply Rleb_false in Y. assert (Hy : In y l) by (rewrite El, E2; apply in_app_iff; cbn; auto). rewrite E2 in C2. destruct C2 as (Ey & _).
      assert (Iy : cx (dir y) (vec c v) <= 0) by (pose proof (I y Hy) as X; rewrite <- Ey; exact X).
      destruct Z as [(E1 & EA)|(z & Hz & Sz & Zg)].
      * apply (@left_in (dir y)); auto; [unfold cx in *; lra|]. rewrite EA. cbn. lra.
      * apply (@cone_neg (dir z) g (dir y)); auto; [repeat split; auto|lra].
  - subst l. exists B. split; auto. destruct C as (_ & C). cbn in C. subst B. unfold cx, vec. cbn.
    assert (0 <= fst g * (snd A - snd v)) by (apply Rmult_le_pos; lra). assert (0 <= snd g * (fst v - fst A)) by (apply Rmult_le_pos; lra). lra.
Qed.
(** some side has the corner for a given direction *)
Lemma direction a b : a <> 0 \/ b <> 0 -> exists k g, (k < 4)%nat /\ quad g /\ forall c v, cx g (vec (rk k c) (rk k v)) = a * (fst v - fst c) + b * (snd v - snd c).
Proof.
  intros H. assert (X : a <= 0 /\ 0 <= b \/ 0 <= a /\ 0 <= b \/ 0 <= a /\ b <= 0 \/ a <= 0 /\ b <= 0) by lra.
  destruct X as [X|[X|[X|X]]].
  - exists 0%nat, (b, - a). split; [lia|]. split; [unfold quad; cbn; lra|]. intros. unfold cx, vec, rk. cbn. ring.
  - exists 1%nat, (a, b). split; [lia|]. split; [unfold quad; cbn; lra|]. intros. unfold cx, vec, rk, rot. cbn. ring.
  - exists 2%nat, (- b, a). split; [lia|]. split; [unfold quad; cbn; lra|]. intros. unfold cx, vec, rk, rot. cbn. ring.
  - exists 3%nat, (- a, - b). split; [lia|]. split; [unfold quad; cbn; lra|]. intros. unfold cx, vec, rk, rot. cbn. ring.
Qed.
