(** The scan of the spatial graphs: sort the edges, keep an edge that equals
    its successor.  Each edge that matters occurs exactly twice. *)
From Verif Require Import Base Num DelModel DelMain SgModel.
Set Implicit Arguments.

Lemma eqE_spec a b : eqE a b = true <-> a = b.
Proof. destruct a as [a1 a2], b as [b1 b2]. unfold eqE. cbn [fst snd]. rewrite andb_true_iff, !Nat.eqb_eq. split; [intros []; congruence|intros [= -> ->]; auto]. Qed.
Lemma eqE_refl a : eqE a a = true. Proof. apply eqE_spec; auto. Qed.
Lemma eqE_false a b : eqE a b = false <-> a <> b.
Proof. rewrite <- eqE_spec. destruct (eqE a b); split; congruence. Qed.
Lemma ltE_spec a b : ltE a b = true <-> fst a < fst b \/ (fst a = fst b /\ snd a < snd b).
Proof. unfold ltE. destruct (Nat.eqb_spec (fst a) (fst b)); rewrite Nat.ltb_lt; lia. Qed.
Lemma ltE_not a b : ltE a b = false <-> fst b < fst a \/ (fst a = fst b /\ snd b <= snd a).
Proof. destruct (ltE a b) eqn:E; [apply ltE_spec in E; split; [congruence|lia]|]. split; auto. intros _. destruct (le_lt_dec (fst b) (fst a)) as [Q|Q]; [|assert (ltE a b = true) by (apply ltE_spec; auto); congruence].
  destruct (Nat.eq_dec (fst a) (fst b)) as [Q1|Q1]; [|lia]. right. split; auto. destruct (le_lt_dec (snd b) (snd a)); auto. assert (ltE a b = true) by (apply ltE_spec; auto). congruence. Qed.
Lemma ltE_anti a b : ltE a b = false -> ltE b a = false -> a = b.
Proof. rewrite !ltE_not. intros. destruct a, b. cbn [fst snd] in *. f_equal; lia. Qed.
Lemma ltE_neq a b : ltE b a = false -> a <> b -> ltE a b = true.
Proof. intros H N. destruct (ltE a b) eqn:E; auto. destruct N. apply ltE_anti; auto. Qed.
Lemma ltE_le a b c : ltE a b = true -> ltE c b = false -> ltE a c = true.
Proof. rewrite !ltE_spec, ltE_not. lia. Qed.

Section Scan.
  Variable X : Type.
  Variable key : X -> sedge.
  Variable flag : X -> bool.
  Definition test (a b : X) : bool := eqE (key a) (key b) && flag a && flag b.
  Fixpoint scan (p : X) (l : list X) : list X :=
    match l with
    | [] => []
    | a :: l' => if test a (hd p l') then a :: scan p l' else scan p l'
    end.
  Fixpoint flagsOf (p : X) (l : list X) : list bool :=
    match l with [] => [] | a :: l' => test a (hd p l') :: flagsOf p l' end.

  Lemma pack_scan p l : packF l (flagsOf p l) = scan p l.
  Proof. induction l as [|a l IH]; auto. cbn [flagsOf packF scan]. destruct (test a (hd p l)); f_equal; auto. Qed.

  Lemma flags_map p l : map (fun i => test (nth i l p) (nth (i + 1) l p)) (seq 0 (length l)) = flagsOf p l.
  Proof.
    induction l as [|a l IH]; auto. cbn [length seq map flagsOf]. f_equal; [destruct l; auto|].
    rewrite <- seq_shift, map_map, <- IH. auto.
  Qed.

  Definition sortedK : list X -> Prop := StronglySorted (fun a b => ltE (key b) (key a) = false).
  Definition cnt (k : sedge) (l : list X) : nat := length (filter (fun y => eqE (key y) k) l).

  Lemma cnt_cons k a l : cnt k (a :: l) = (if eqE (key a) k then S (cnt k l) else cnt k l).
  Proof. unfold cnt. cbn [filter]. destruct (eqE (key a) k); auto. Qed.
  Lemma cnt_0 k l : cnt k l = 0 -> forall y, In y l -> key y <> k.
  Proof.
    induction l as [|a l IH]; [intros _ y []|]. rewrite cnt_cons. destruct (eqE (key a) k) eqn:E; [discriminate|].
    intros Z y [<-|Hy]; [apply eqE_false; auto|apply IH; auto].
  Qed.
  Lemma cnt_pos k l : cnt k l <> 0 -> exists y, In y l /\ key y = k.
  Proof.
    induction l as [|a l IH]; [intros Z; destruct Z; auto|]. rewrite cnt_cons. destruct (eqE (key a) k) eqn:E.
    - intros _. exists a. split; [left; auto|apply eqE_spec; auto].
    - intros Z. destruct (IH Z) as (y & Hy & K). exists y. split; [right|]; auto.
  Qed.

  Lemma scan_incl p l x : In x (scan p l) -> In x l.
  Proof. induction l as [|a l IH]; auto. cbn [scan]. destruct (test a (hd p l)); [intros [<-|H]; [left; auto|]|intros H]; right; auto. Qed.

  Lemma scan_spec p : forall l, sortedK l ->
    (forall x, In x l -> flag x = true -> cnt (key x) l = 2) ->
    (forall l0 x, l = l0 ++ [x] -> flag x = false) ->
    StronglySorted (fun a b => ltE (key a) (key b) = true) (scan p l) /\
    forall k, In k (map key (scan p l)) <-> (exists x, In x l /\ key x = k) /\ forall x, In x l -> key x = k -> flag x = true.
  Proof.
    enough (G : forall n l, length l <= n -> sortedK l -> (forall x, In x l -> flag x = true -> cnt (key x) l = 2) ->
      (forall l0 x, l = l0 ++ [x] -> flag x = false) ->
      StronglySorted (fun a b => ltE (key a) (key b) = true) (scan p l) /\
      forall k, In k (map key (scan p l)) <-> (exists x, In x l /\ key x = k) /\ forall x, In x l -> key x = k -> flag x = true)
      by (intros l; apply (G (length l)); auto).
    induction n as [|n IHn]; intros l Hn SO C2 LA.
    { destruct l; [|cbn in Hn; lia]. cbn [scan map]. split; [constructor|]. intros k. split; [intros []|intros ((x & [] & _) & _)]. }
    destruct l as [|a l].
    { cbn [scan map]. split; [constructor|]. intros k. split; [intros []|intros ((x & [] & _) & _)]. }
    cbn [length] in Hn. inversion SO as [|? ? SO' FA]; subst. rewrite Forall_forall in FA.
    assert (LA' : forall l0 x, l = l0 ++ [x] -> flag x = false) by (intros l0 x ->; apply (LA (a :: l0) x); auto).
    destruct (existsb (fun x => eqE (key x) (key a) && flag x) (a :: l)) eqn:EX.
    - (* the group of a matters: two cells *)
      apply existsb_exists in EX. destruct EX as (x & Hx & Q). apply andb_true_iff in Q. destruct Q as (Q & Fx). apply eqE_spec in Q.
      pose proof (C2 x Hx Fx) as Cx. rewrite Q, cnt_cons, eqE_refl in Cx. injection Cx as Cx.
      destruct (cnt_pos (key a) l) as (y & Hy & Ky); [lia|].
      destruct l as [|b l]; [destruct Hy|]. cbn [length] in Hn. inversion SO' as [|? ? SO'' FB]; subst. rewrite Forall_forall in FB.
      assert (Kb : key b = key a).
      { destruct Hy as [<-|Hy]; auto. apply ltE_anti; [apply FA; left; auto|]. rewrite <- Ky. apply FB; auto. }
      rewrite cnt_cons, Kb, eqE_refl in Cx. injection Cx as Cx. pose proof (@cnt_0 (key a) l Cx) as NK.
      destruct (IHn l) as (IH1 & IH2); [lia|auto| |intros l0 z E; apply (LA' (b :: l0) z); rewrite E; auto|].
      { intros z Hz Fz. pose proof (C2 z (or_intror (or_intror Hz)) Fz) as Cz. rewrite !cnt_cons, Kb in Cz.
        destruct (eqE (key a) (key z)) eqn:E; auto. apply eqE_spec in E. destruct (NK z Hz). auto. }
      assert (Tb : test b (hd p l) = false).
      { unfold test. destruct l as [|c l]; [rewrite (LA' [] b eq_refl), andb_false_r; auto|]. cbn [hd].
        assert (E : eqE (key b) (key c) = false) by (apply eqE_false; rewrite Kb; intros E; apply (NK c); [left|]; auto). rewrite E. auto. }
      cbn [scan hd]. cbn [hd] in Tb. rewrite Tb. assert (Ta : test a b = flag a && flag b) by (unfold test; rewrite Kb, eqE_refl; auto). rewrite Ta.
      destruct (flag a && flag b) eqn:FF.
      + apply andb_true_iff in FF. destruct FF as (Fa & Fb). split.
        * constructor; auto. apply Forall_forall. intros z Hz. apply scan_incl in Hz. apply ltE_neq; [apply FA; right; auto|]. intros E. apply (NK z Hz). auto.
        * intros k. cbn [map]. cbn [In]. rewrite IH2. split.
          -- intros [<-|((z & Hz & Kz) & Al)].
             ++ split; [exists a; auto|]. intros z [<-|[<-|Hz]] E; auto. destruct (NK z Hz E).
             ++ split; [exists z; auto|]. intros z' [<-|[<-|Hz']] E; auto.
          -- intros ((z & Hz & Kz) & Al). destruct (eqE (key a) k) eqn:E; [left; apply eqE_spec; auto|]. right. apply eqE_false in E. split.
             ++ destruct Hz as [<-|[<-|Hz]]; [congruence|congruence|exists z; auto].
             ++ intros z' Hz' Ez. apply Al; auto.
      + split; auto. intros k. rewrite IH2. split.
        * intros ((z & Hz & Kz) & Al). split; [exists z; split; [right; right|]; auto|].
          intros z' Hz' E. destruct Hz' as [Hz'|[Hz'|Hz']]; [subst z'; destruct (NK z Hz); congruence|subst z'; destruct (NK z Hz); congruence|auto].
        * intros ((z & Hz & Kz) & Al). assert (Nk : key a <> k).
          { intros E. assert (F1 : flag a = true) by (apply Al; [left|]; auto).
            assert (F2 : flag b = true) by (apply Al; [right; left; auto|congruence]). rewrite F1, F2 in FF. discriminate. }
          split; [|intros z' Hz' Ez; apply Al; [right; right|]; auto]. destruct Hz as [<-|[<-|Hz]]; [congruence|congruence|exists z; auto].
    - (* nothing in the group is kept *)
      assert (NF : forall x, In x (a :: l) -> key x = key a -> flag x = false).
      { intros x Hx E. destruct (flag x) eqn:F; auto. assert (X0 : existsb (fun x => eqE (key x) (key a) && flag x) (a :: l) = true); [|congruence].
        apply existsb_exists. exists x. split; auto. rewrite E, eqE_refl, F. auto. }
      assert (Fa : flag a = false) by (apply NF; [left|]; auto).
      destruct (IHn l) as (IH1 & IH2); [lia|auto| |auto|].
      { intros z Hz Fz. pose proof (C2 z (or_intror Hz) Fz) as Cz. rewrite cnt_cons in Cz. destruct (eqE (key a) (key z)) eqn:E; auto.
        apply eqE_spec in E. rewrite (NF z) in Fz; [discriminate|right; auto|auto]. }
      cbn [scan]. assert (T : test a (hd p l) = false) by (unfold test; rewrite Fa, andb_false_r; auto). rewrite T. split; auto.
      intros k. rewrite IH2. split.
      + intros ((z & Hz & Kz) & Al). split; [exists z; split; [right|]; auto|]. intros z' [<-|Hz'] E; auto.
        exfalso. rewrite <- Kz in E. pose proof (NF z (or_intror Hz) (eq_sym E)) as F. rewrite (Al z Hz Kz) in F. discriminate.
      + intros ((z & Hz & Kz) & Al). assert (Nk : key a <> k) by (intros E; rewrite (Al a (or_introl eq_refl) E) in Fa; discriminate).
        split; [|intros z' Hz' E; apply Al; [right|]; auto]. destruct Hz as [<-|Hz]; [congruence|exists z; auto].
  Qed.

  Lemma perm_filter (f : X -> bool) l l' : Permutation l l' -> Permutation (filter f l) (filter f l').
  Proof.
    induction 1 as [| x l l' _ IH | x y l | l1 l2 l3 _ IH1 _ IH2]; cbn [filter]; auto.
    - destruct (f x); auto.
    - destruct (f x), (f y); auto. constructor.
    - etransitivity; eauto.
  Qed.
  Lemma cnt_perm k l l' : Permutation l l' -> cnt k l = cnt k l'.
  Proof. intros H. apply Permutation_length, perm_filter, H. Qed.
  Lemma cnt_app k l l' : cnt k (l ++ l') = cnt k l + cnt k l'.
  Proof. unfold cnt. rewrite filter_app, app_length. auto. Qed.

  (** The last cell of the sorted array is the empty edge. *)
  Lemma last_big l e : sortedK (l ++ [e]) -> forall x, In x (l ++ [e]) -> ltE (key e) (key x) = false.
  Proof.
    induction l as [|a l IH]; cbn [app]; intros SO x Hx.
    - destruct Hx as [<-|[]]. apply ltE_not. right. auto.
    - inversion SO as [|? ? SO' FA]; subst. destruct Hx as [<-|Hx]; auto. rewrite Forall_forall in FA. apply FA. apply in_or_app. right. left. auto.
  Qed.
End Scan.

(** Reading with an index *)
Lemma rdPast_in A (l : list A) past i p : i < length l -> rdPast l past i = Ok (nth i l p).
Proof. intros H. unfold rdPast. rewrite (nth_error_nth' l p H). auto. Qed.
Lemma rdPast_all A (l : list A) p i : i <= length l -> rdPast l (Some p) i = Ok (nth i l p).
Proof.
  intros H. destruct (Nat.eq_dec i (length l)) as [->|N]; [|apply rdPast_in; lia].
  unfold rdPast. rewrite (proj2 (nth_error_None l (length l))), Nat.eqb_refl, nth_overflow; auto.
Qed.
Lemma wrAt_ok len i : i < len -> wrAt len i = Ok tt.
Proof. unfold wrAt. destruct (Nat.ltb_spec i len); auto; lia. Qed.

Lemma mapR_ub A B (f : A -> res B) l : (forall x, In x l -> (exists y, f x = Ok y) \/ f x = UB) -> (exists x, In x l /\ f x = UB) -> mapR f l = UB.
Proof.
  induction l as [|a l IH]; intros H (x & Hx & E); [destruct Hx|]. cbn [mapR]. destruct (H a (or_introl eq_refl)) as [(y & Ey)|Ey]; rewrite Ey; cbn [bind]; auto.
  destruct Hx as [<-|Hx]; [congruence|]. rewrite IH; auto; [intros z Hz; apply H; right; auto|exists x; auto].
Qed.

(** Directed keys without repetition *)
Lemma filter_one K (dir : K -> sedge) d : forall l, NoDup (map dir l) -> length (filter (fun k => eqE (dir k) d) l) = if existsb (fun k => eqE (dir k) d) l then 1 else 0.
Proof.
  induction l as [|a l IH]; intros ND; auto. inversion ND as [|? ? NI ND']; subst. cbn [filter existsb]. destruct (eqE (dir a) d) eqn:E; cbn [orb]; [|apply IH; auto].
  apply eqE_spec in E. cbn [length]. f_equal. rewrite IH by auto. destruct (existsb (fun k => eqE (dir k) d) l) eqn:X; auto.
  apply existsb_exists in X. destruct X as (k & Hk & Q). apply eqE_spec in Q. destruct NI. rewrite E, <- Q. apply in_map; auto.
Qed.
Lemma filter_or K (f g : K -> bool) l : (forall x, f x = true -> g x = false) -> length (filter (fun x => f x || g x) l) = length (filter f l) + length (filter g l).
Proof.
  intros D. induction l as [|a l IH]; auto. cbn [filter]. destruct (f a) eqn:F; [rewrite (D a F)|destruct (g a)]; cbn [orb length]; rewrite IH; lia.
Qed.
