(** Geometry of oriented triangles in exact arithmetic. *)
From Coq Require Import Reals Lra Lia Psatz List Bool Permutation.
From Verif Require Import Base Num Hull2dModel H3Model.
Set Implicit Arguments.
Open Scope R_scope.

Notation p3 := (v3 R).
Notation tri3 := (p3 * p3 * p3)%type.

(** Six times the signed volume: positive when [d] is on the outer side of
    the triangle [a b c]. *)
Definition svol (a b c d : p3) : R :=
  (vx a - vx d) * ((vy b - vy a) * (vz c - vz a) - (vz b - vz a) * (vy c - vy a)) +
  (vy a - vy d) * ((vz b - vz a) * (vx c - vx a) - (vx b - vx a) * (vz c - vz a)) +
  (vz a - vz d) * ((vx b - vx a) * (vy c - vy a) - (vy b - vy a) * (vx c - vx a)).

Definition ht (t : tri3) (q : p3) : R := let '(a, b, c) := t in svol a b c q.

Ltac v3d := repeat match goal with x : v3 R |- _ =>
  let a := fresh "x" in let b := fresh "y" in let c := fresh "z" in destruct x as [a b c] end; cbn [vx vy vz] in *.
Ltac sv := intros; v3d; unfold svol; cbn [vx vy vz]; ring.

Lemma svol_rot a b c d : svol b c a d = svol a b c d. Proof. sv. Qed.
Lemma svol_swap a b c d : svol a c b d = - svol a b c d. Proof. sv. Qed.
Lemma svol_swap1 a b c d : svol b a c d = - svol a b c d. Proof. sv. Qed.
Lemma svol_swapd a b c d : svol a b d c = - svol a b c d. Proof. sv. Qed.
Lemma svol_a a b c : svol a b c a = 0. Proof. sv. Qed.
Lemma svol_b a b c : svol a b c b = 0. Proof. sv. Qed.
Lemma svol_c a b c : svol a b c c = 0. Proof. sv. Qed.
Lemma svol_aab a b d : svol a a b d = 0. Proof. sv. Qed.
Lemma svol_aba a b d : svol a b a d = 0. Proof. sv. Qed.
Lemma svol_abb a b d : svol a b b d = 0. Proof. sv. Qed.

(** An affine function. *)
Definition aff (k : R * R * R * R) (q : p3) : R := let '(k0, k1, k2, k3) := k in k0 + k1 * vx q + k2 * vy q + k3 * vz q.
Lemma svol_aff a b c : exists k, forall q, svol a b c q = aff k q.
Proof.
  destruct a as [ax ay az], b as [bx by_ bz], c as [cx cy cz].
  pose (n1 := (by_ - ay) * (cz - az) - (bz - az) * (cy - ay)).
  pose (n2 := (bz - az) * (cx - ax) - (bx - ax) * (cz - az)).
  pose (n3 := (bx - ax) * (cy - ay) - (by_ - ay) * (cx - ax)).
  exists (ax * n1 + ay * n2 + az * n3, - n1, - n2, - n3).
  intros [x y z]. unfold svol, aff, n1, n2, n3; cbn [vx vy vz]. ring.
Qed.
Lemma ht_aff t : exists k, forall q, ht t q = aff k q.
Proof. destruct t as [[a b] c]. apply svol_aff. Qed.

(** [w - o] in the basis [a - o], [b - o], [c - o] (Cramer). *)
Lemma bary t o a b c w : svol a b c o * (ht t w - ht t o) =
  svol w b c o * (ht t a - ht t o) + svol a w c o * (ht t b - ht t o) + svol a b w o * (ht t c - ht t o).
Proof.
  destruct (ht_aff t) as [k Hk]. rewrite !Hk. destruct k as [[[k0 k1] k2] k3]. unfold aff.
  v3d; unfold svol; cbn [vx vy vz]. ring.
Qed.

(** The plane through an edge [a b] and [p]. *)
Lemma pencil a b c d p q :
  svol a b p q * - svol a b c d = svol a b c p * svol b a d q - svol b a d p * svol a b c q.
Proof.
  (* relative to a *)
  v3d. unfold svol; cbn [vx vy vz].
  ring.
Qed.
