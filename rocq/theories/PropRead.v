(** C100: reading point files that were not written by the library. *)
From Coq Require Import Ascii String NArith ZArith List Bool Lia Arith.
From Verif Require Import Base Sched IoModel IoProofs IntIoSpec IntIoModel IntIoProofs.
Set Implicit Arguments.
Import ListNotations.
Open Scope list_scope.
Open Scope nat_scope.

(** ** Words of a text *)
Definition reads (z : text) (p : nat) (w : text) : Prop := exists rest, skipn p z = w ++ NUL :: rest.
Definition closed (s : text) : Prop := s = [] \/ exists s' c, s = s' ++ [c] /\ separator c.

Lemma sep_iff c : is_space c = true <-> separator c.
Proof. apply separator_space. Qed.
Lemma nsep c : ~ separator c -> is_space c = false.
Proof. intros H. destruct (is_space c) eqn:E; auto. apply sep_iff in E. tauto. Qed.
Lemma zeroed_app s u : zeroed (s ++ u) = zeroed s ++ zeroed u. Proof. apply map_app. Qed.
Lemma zeroed_seps s : (forall c, In c s -> separator c) -> zeroed s = repeat NUL (length s).
Proof.
  induction s as [|c s IH]; intros H; auto. cbn [zeroed map length repeat]. rewrite (proj2 (sep_iff c)) by (apply H; left; auto).
  f_equal. apply IH. intros; apply H; right; auto.
Qed.
Lemma scan_nuls k : forall i s, scanFrom NUL i (repeat NUL k ++ s) = scanFrom NUL (i + k) s.
Proof. induction k as [|k IH]; intros i s; [cbn; now rewrite Nat.add_0_r|]. cbn. rewrite IH. f_equal. lia. Qed.
Lemma scan_start w i rest : w <> [] -> (forall c, In c w -> c <> NUL) -> scanFrom NUL i (w ++ NUL :: rest) = i :: scanFrom NUL (i + length w + 1) rest.
Proof.
  intros Nw Hw. destruct w as [|x w]; [congruence|]. cbn [app scanFrom]. destruct (ceq_spec x NUL) as [E|E]; [exfalso; apply (Hw x); cbn; auto|].
  destruct (ceq_spec NUL NUL); [|congruence]. cbn [negb andb app]. f_equal. rewrite scan_word; auto; [|intros; apply Hw; right; auto].
  f_equal. cbn [length]. lia.
Qed.
Lemma scan_end w : forall prev i, prev <> NUL -> (forall c, In c w -> c <> NUL) -> scanFrom prev i w = [].
Proof.
  induction w as [|c w IH]; intros prev i Hp Hw; auto. cbn [scanFrom]. destruct (ceq_spec prev NUL); [congruence|]. rewrite andb_false_r. cbn [app].
  apply IH; [apply Hw; left; auto|intros; apply Hw; right; auto].
Qed.
Lemma scan_last w i : w <> [] -> (forall c, In c w -> c <> NUL) -> scanFrom NUL i w = [i].
Proof.
  intros Nw Hw. destruct w as [|x w]; [congruence|]. cbn [scanFrom]. destruct (ceq_spec x NUL) as [E|E]; [exfalso; apply (Hw x); cbn; auto|].
  destruct (ceq_spec NUL NUL); [|congruence]. cbn [negb andb app]. f_equal. apply scan_end; [exact E|]. intros; apply Hw; right; auto.
Qed.

Lemma lay_read ws s : layout ws s -> forall pre,
  let W := scanFrom NUL (length pre) (zeroed s) in let z := pre ++ zeroed s in
  (closed s /\ Forall2 (reads z) W ws) \/
  exists W' p ws' w s', W = W' ++ [p] /\ ws = ws' ++ [w] /\ Forall2 (reads z) W' ws' /\ skipn p z = w /\ w <> [] /\ (forall c, In c w -> ~ separator c) /\ s = s' ++ w.
Proof.
  induction 1 as [s Hs|pre0 w Hp Nw Hw|pre0 w c ws s Hp Nw Hw Hc HL IH]; intros pre; cbv zeta.
  - left. split.
    + unfold closed. destruct s as [|x s]; [auto|]. right. destruct (@exists_last _ (x :: s)) as (s' & y & E); [discriminate|].
      exists s', y. split; auto. apply Hs. rewrite E. apply in_or_app. right. left. auto.
    + rewrite zeroed_seps by auto. rewrite <- (app_nil_r (repeat NUL (length s))), scan_nuls. constructor.
  - right. rewrite zeroed_app, zeroed_seps by auto. rewrite zeroed_word by (intros c Hc; apply nsep; auto).
    rewrite scan_nuls, scan_last; auto; [|intros c Hc ->; apply (Hw NUL Hc); apply sep_iff; reflexivity].
    exists [], (length pre + length pre0), [], w, pre0. repeat (split; [auto; fail|]). split; [|auto].
    rewrite app_assoc. replace (length pre + length pre0) with (length (pre ++ repeat NUL (length pre0))) by (rewrite app_length, repeat_length; auto).
    apply skipn_app_len.
  - assert (Zw : zeroed (pre0 ++ w ++ c :: s) = repeat NUL (length pre0) ++ w ++ NUL :: zeroed s).
    { rewrite !zeroed_app, zeroed_seps by auto. rewrite zeroed_word by (intros x Hx; apply nsep; auto).
      change (zeroed (c :: s)) with ((if is_space c then NUL else c) :: zeroed s). rewrite (proj2 (sep_iff c)); auto. }
    rewrite Zw, scan_nuls, scan_start; auto; [|intros x Hx ->; apply (Hw NUL Hx); apply sep_iff; reflexivity].
    set (pre' := pre ++ repeat NUL (length pre0) ++ w ++ [NUL]).
    assert (Ep : length pre + length pre0 + length w + 1 = length pre') by (unfold pre'; rewrite !app_length, repeat_length; cbn [length]; lia).
    assert (Ez : pre ++ repeat NUL (length pre0) ++ w ++ NUL :: zeroed s = pre' ++ zeroed s).
    { unfold pre'. rewrite <- !app_assoc. reflexivity. }
    assert (Rw : reads (pre' ++ zeroed s) (length pre + length pre0) w).
    { exists (zeroed s). rewrite <- Ez, app_assoc.
      replace (length pre + length pre0) with (length (pre ++ repeat NUL (length pre0))) by (rewrite app_length, repeat_length; auto).
      apply skipn_app_len. }
    rewrite Ep, Ez. specialize (IH pre'). cbv zeta in IH. destruct IH as [[Cl F]|(W' & p & ws' & w' & s' & E1 & E2 & F & Sk & N' & H' & E3)].
    + left. split; [|constructor; auto]. right. destruct Cl as [->|(s' & x & -> & Hx)].
      * exists (pre0 ++ w), c. split; auto. now rewrite <- app_assoc.
      * exists (pre0 ++ w ++ c :: s'), x. split; auto. rewrite <- !app_assoc. reflexivity.
    + right. exists ((length pre + length pre0) :: W'), p, (w :: ws'), w', (pre0 ++ w ++ c :: s'). rewrite E1, E2.
      repeat (split; [reflexivity|]). split; [constructor; auto|]. repeat (split; [assumption|]). rewrite E3, <- !app_assoc. reflexivity.
Qed.

Lemma f2_cons A B (R : A -> B -> Prop) x y l m : Forall2 R (x :: l) (y :: m) -> R x y /\ Forall2 R l m.
Proof. intros H. inversion H; auto. Qed.
(** what the words of a file are read as *)
Lemma words_lay ws file : layout ws file -> exists z W, stringToWords file = (z, W) /\
  ((closed file /\ Forall2 (reads z) W ws) \/
  exists W' p ws' w s', W = W' ++ [p] /\ ws = ws' ++ [w] /\ Forall2 (reads z) W' ws' /\ skipn p z = w /\ w <> [] /\ (forall c, In c w -> ~ separator c) /\ file = s' ++ w).
Proof.
  intros H. exists (zeroed file), (scanFrom NUL 0 (zeroed file)). split; [|exact (lay_read H [])].
  unfold stringToWords. f_equal. destruct (zeroed file) as [|x s] eqn:E; [reflexivity|]. apply (@wordStart_scan [] (x :: s)). discriminate.
Qed.
Lemma lay_words ws s : layout ws s -> forall w, In w ws -> w <> [] /\ forall c, In c w -> ~ separator c.
Proof.
  induction 1 as [s Hs|pre0 w Hp Nw Hw|pre0 w c ws s Hp Nw Hw Hc HL IH]; intros w' Hw'; [destruct Hw'|destruct Hw' as [<-|[]]; auto|].
  destruct Hw' as [<-|Hw']; auto.
Qed.
Lemma reads_cstr z p w : (forall c, In c w -> ~ separator c) -> reads z p w -> cstr z p = Ok w.
Proof. intros H (rest & E). unfold cstr. rewrite E. apply cstrOf_word. intros c Hc. apply nsep; auto. Qed.
Lemma cstr_end z p w : (forall c, In c w -> ~ separator c) -> skipn p z = w -> cstr z p = UB.
Proof.
  intros H E. unfold cstr. rewrite E. clear E. induction w as [|c w IH]; auto. cbn [cstrOf]. destruct (ceq_spec c NUL) as [->|].
  - exfalso. apply (H NUL); [left; auto|apply sep_iff; reflexivity].
  - rewrite IH; auto. intros; apply H; right; auto.
Qed.
Lemma reads_map z W ws : (forall w, In w ws -> forall c, In c w -> ~ separator c) -> Forall2 (reads z) W ws -> mapM (cstr z) W = Ok ws.
Proof.
  intros H F. induction F as [|p w W ws Hp F IH]; [reflexivity|]. cbn [mapM]. rewrite (reads_cstr (H w (or_introl eq_refl)) Hp). cbn [bind].
  rewrite IH by (intros; eapply H; eauto; right; auto). reflexivity.
Qed.

(** ** The points of a file *)
(** the characters of numbers: digits, point, signs, e *)
Definition numberChar (c : ascii) : Prop := In c (list_ascii_of_string "0123456789.+-e").
(** the words that are read as numbers: all, or all but the first if it has
    another character *)
Definition numbersOf (ws nums : list text) : Prop :=
  match ws with
  | [] => False
  | w :: ws' => ((exists c, In c w /\ ~ numberChar c) /\ nums = ws') \/ ((forall c, In c w -> numberChar c) /\ nums = ws)
  end.
Lemma number_iff c : is_number c = true <-> numberChar c.
Proof.
  unfold is_number, oneOf, numberChar. rewrite existsb_exists. split.
  - intros (x & Hx & E). unfold ceq in E. apply Ascii.eqb_eq in E. subst x. exact Hx.
  - intros H. exists c. split; [exact H|]. apply Ascii.eqb_refl.
Qed.
Lemma header_iff w : (forall c, In c w -> ~ separator c) -> isGenericHeader w = true <-> exists c, In c w /\ ~ numberChar c.
Proof.
  intros H. unfold isGenericHeader. rewrite existsb_exists. split; intros (c & Hc & E); exists c; (split; [exact Hc|]).
  - apply andb_true_iff in E as [E _]. intros N. apply number_iff in N. rewrite N in E. discriminate.
  - destruct (is_number c) eqn:En; [exfalso; apply E, number_iff; auto|]. pose proof (nsep (H c Hc)) as Ns.
    rewrite (delim_space c Ns). reflexivity.
Qed.

Section Read.
  Variable T : Type.
  Variable atof : text -> T.

  Lemma mapM_app A B (f : A -> res B) u v r : mapM f u = Ok r -> mapM f (u ++ v) = (r' <- mapM f v ;; Ok (r ++ r')).
  Proof.
    revert r. induction u as [|x u IH]; intros r E; cbn in *.
    - injection E as <-. destruct (mapM f v); reflexivity.
    - destruct (f x) as [y| | |]; try discriminate. cbn in *. destruct (mapM f u) as [r'| | |]; try discriminate. cbn in E. injection E as <-.
      rewrite (IH r') by auto. destruct (mapM f v); reflexivity.
  Qed.
  Lemma mapM_firstn A B (f : A -> res B) l r k : mapM f l = Ok r -> mapM f (firstn k l) = Ok (firstn k r).
  Proof.
    revert r k. induction l as [|x l IH]; intros r k E; cbn in E.
    - injection E as <-. now rewrite !firstn_nil.
    - destruct (f x) as [y| | |] eqn:Ex; try discriminate. cbn in E. destruct (mapM f l) as [r'| | |] eqn:El; try discriminate. cbn in E. injection E as <-.
      destruct k as [|k]; [reflexivity|]. cbn [firstn mapM]. rewrite Ex. cbn [bind]. rewrite (IH r' k eq_refl). reflexivity.
  Qed.
  Lemma count_div d (A : list (list text)) rest : 0 < d -> (forall a, In a A -> length a = d) -> length rest < d -> length (concat A ++ rest) / d = length A.
  Proof.
    intros Hd H Hr. rewrite app_length, (concat_length_d A H). rewrite (Nat.mul_comm d), Nat.div_add_l by lia. rewrite Nat.div_small by auto. lia.
  Qed.
  Lemma parse_rest d s W A rest : 0 < d -> mapM (cstr s) W = Ok (concat A ++ rest) -> (forall a, In a A -> length a = d) -> length rest < d ->
    parsePoints atof d s W = Ok (map (map atof) A).
  Proof.
    intros Hd E H Hr. pose proof (mapM_length _ _ E) as L. pose proof (count_div A rest Hd H Hr) as C. rewrite L in C.
    assert (E' : mapM (cstr s) (firstn (d * length A) W) = Ok (concat A)).
    { rewrite (mapM_firstn _ _ _ E). f_equal. rewrite <- (concat_length_d A H), firstn_app, firstn_all, Nat.sub_diag. cbn. apply app_nil_r. }
    pose proof (parse_ok atof s _ A Hd E' H) as Y. unfold parsePoints in *. rewrite C.
    pose proof (mapM_length _ _ E') as L'. rewrite (concat_length_d A H) in L'. rewrite <- L' in Y.
    rewrite (Nat.mul_comm d (length A)), Nat.div_mul in Y by lia.
    rewrite (Nat.mul_comm d (length A)), <- (Nat.mul_comm d) in *. rewrite firstn_firstn, Nat.min_id in Y. exact Y.
  Qed.
End Read.

(** C100: a file ends in a separator; whatever the separators between the words,
    it is read as the points of its numbers in groups of [d], without the first
    word if that is no number and without the numbers left over. *)
Theorem C100_read : forall T (atof : text -> T) d file s c ws nums A rest, 0 < d -> layout ws file -> file = s ++ [c] -> separator c ->
  numbersOf ws nums -> nums = concat A ++ rest -> (forall a, In a A -> length a = d) -> length rest < d ->
  readPoints atof d file = Ok (map (map atof) A).
Proof.
  intros T atof d file s c ws nums A rest Hd HL Ef Hc HN En HA Hr. pose proof (lay_words HL) as Hw.
  destruct (words_lay HL) as (z & W & EW & [[_ F]|(W' & p & ws' & w & s' & _ & E & _ & _ & Nw & H' & E3)]).
  2: { exfalso. destruct (@exists_last _ w Nw) as (w' & x & ->). rewrite app_assoc, Ef in E3. apply app_inj_tail in E3 as [_ ->].
       apply (H' x); auto. apply in_or_app. right. left. auto. }
  unfold readPoints. rewrite EW. destruct ws as [|w ws]; [destruct HN|]. destruct W as [|p W0]; [inversion F|]. destruct (f2_cons F) as [Hp F0].
  rewrite (reads_cstr (proj2 (Hw w (or_introl eq_refl))) Hp). cbn [bind].
  pose proof (@header_iff w (proj2 (Hw w (or_introl eq_refl)))) as HI.
  destruct HN as [[G ->]|[G ->]].
  - rewrite (proj2 HI G). apply parse_rest with (rest := rest); auto. rewrite <- En. apply reads_map; auto.
    intros w' Hw'. apply Hw. right; auto.
  - destruct (isGenericHeader w) eqn:B; [destruct (proj1 HI eq_refl) as (x & Hx & Nx); exfalso; apply Nx; auto|].
    apply parse_rest with (rest := rest); auto. rewrite <- En. apply reads_map; auto. intros w' Hw'. apply Hw; auto.
Qed.
Print Assumptions C100_read.

(** C100: a file of separators is refused. *)
Theorem C100_blank : forall T (atof : text -> T) d file, (forall c, In c file -> separator c) -> readPoints atof d file = Throw.
Proof.
  intros T atof d file H. unfold readPoints. destruct (words_lay (@lay_nil file H)) as (z & W & -> & [[_ F]|(W' & p & ws' & w & s' & _ & E & _)]).
  - inversion F. reflexivity.
  - destruct ws'; discriminate.
Qed.
Print Assumptions C100_blank.

(** C100 refuted without the separator at the end: every file whose last number
    completes a point and ends the file is read past its end. *)
Theorem C100_unterminated_refuted : forall T (atof : text -> T) d file s c ws nums A, 0 < d -> layout ws file -> file = s ++ [c] -> ~ separator c ->
  numbersOf ws nums -> nums = concat A -> A <> [] -> (forall a, In a A -> length a = d) -> readPoints atof d file = UB.
Proof.
  intros T atof d file s c ws nums A Hd HL Ef Hc HN En NA HA. pose proof (lay_words HL) as Hw.
  destruct (words_lay HL) as (z & W & EW & [[Cl F]|(W' & p & ws' & w & s' & E1 & E2 & F & Sk & Nw & H' & E3)]).
  { exfalso. destruct Cl as [->|(s' & x & E & Hx)]; [destruct s; discriminate|]. rewrite Ef in E. apply app_inj_tail in E as [_ ->]. auto. }
  assert (CE : cstr z p = UB) by (eapply cstr_end; eauto).
  assert (PU : forall V us, Forall2 (reads z) V us -> (forall w, In w us -> forall c, In c w -> ~ separator c) -> us ++ [w] = concat A -> parsePoints atof d z (V ++ [p]) = UB).
  { intros V us FV Hus EA. unfold parsePoints. pose proof (count_div A [] Hd HA Hd) as C. rewrite app_nil_r in C.
    assert (LV : length (V ++ [p]) = length (concat A)) by (rewrite <- EA, !app_length; f_equal; clear - FV; induction FV; cbn; auto).
    rewrite LV, C, firstn_all2 by (rewrite LV, (concat_length_d A HA); lia).
    assert (E : mapM (fun q => w0 <- cstr z q ;; Ok (atof w0)) V = Ok (map atof us)) by (apply mapM_comp, reads_map; auto).
    rewrite (mapM_app _ _ _ E). cbn [mapM]. rewrite CE. reflexivity. }
  unfold readPoints. rewrite EW, E1, E2 in *. subst W ws. destruct W' as [|q W'].
  - destruct ws' as [|w1 ws1]; [|inversion F]. cbn [app]. rewrite CE. reflexivity.
  - destruct ws' as [|w1 ws1]; [inversion F|]. destruct (f2_cons F) as [Hq F1]. cbn [app] in *. rewrite (reads_cstr (proj2 (Hw w1 (or_introl eq_refl))) Hq). cbn [bind].
    pose proof (@header_iff w1 (proj2 (Hw w1 (or_introl eq_refl)))) as HI.
    destruct HN as [[G ->]|[G ->]].
    + rewrite (proj2 HI G). apply PU with (us := ws1); auto. intros w' Hw'. apply Hw. right. apply in_or_app; auto.
    + destruct (isGenericHeader w1) eqn:B; [destruct (proj1 HI eq_refl) as (x & Hx & Nx); exfalso; apply Nx; auto|].
      apply (PU (q :: W') (w1 :: ws1)); auto. intros w' Hw'. apply Hw. destruct Hw' as [->|Hw']; [left; auto|right; apply in_or_app; auto].
Qed.
Print Assumptions C100_unterminated_refuted.

(** C100 refuted for a header of two words: only the first is left out, and the
    points are shifted by one number; the dimension is still found. *)
Theorem C100_header_refuted : forall T (atof : text -> T), let file := txt "x y" ++ [NL] ++ txt "1 2" ++ [NL] ++ txt "3 4" ++ [NL] in
  readHeader file = Ok 2 /\ readPoints atof 2 file = Ok [[atof (txt "y"); atof (txt "1")]; [atof (txt "2"); atof (txt "3")]].
Proof. intros T atof file. split; reflexivity. Qed.
Print Assumptions C100_header_refuted.

(** Carriage returns, commas and a last number that is left over. *)
Example C100_example : readPoints (fun s => s) 2 (txt "id;1,2" ++ [CR; NL] ++ txt " 3, 4,5" ++ [NL]) = Ok [[txt "1"; txt "2"]; [txt "3"; txt "4"]].
Proof. reflexivity. Qed.

(** ** The dimension *)
(** tab, blank, comma, semicolon *)
Definition delimiter (c : ascii) : Prop := In (nat_of_ascii c) [9; 32; 44; 59].
(** a line of [k] numbers, one delimiter between two of them, any at the end *)
Inductive lineOf : nat -> text -> Prop :=
| ln_last w tr : w <> [] -> (forall c, In c w -> numberChar c) -> (forall c, In c tr -> delimiter c) -> lineOf 1 (w ++ tr)
| ln_more w c k s : w <> [] -> (forall c, In c w -> numberChar c) -> delimiter c -> lineOf k s -> lineOf (S k) (w ++ c :: s).

Lemma delim_iff c : is_delim c = true <-> delimiter c.
Proof.
  unfold is_delim, oneOf, delimiter. rewrite existsb_exists. split.
  - intros (x & Hx & E). unfold ceq in E. apply Ascii.eqb_eq in E. subst x. cbn in Hx. repeat (destruct Hx as [<-|Hx]; [cbn; auto 10|]). destruct Hx.
  - intros H. exists c. split; [|apply Ascii.eqb_refl]. rewrite <- (ascii_nat_embedding c). cbn [In] in H.
    destruct H as [<-|[<-|[<-|[<-|[]]]]]; cbn; auto 10.
Qed.
Lemma num_not c : numberChar c -> is_space c = false /\ is_delim c = false /\ c <> NL.
Proof.
  intros H. apply number_iff in H. pose proof (number_space _ H) as S. split; auto. split; [apply delim_space; auto|].
  intros ->. discriminate.
Qed.
Lemma popBack_trail c body : is_space c = false -> forall tr fuel, (forall x, In x tr -> is_delim x = true) -> length tr < fuel ->
  popBack fuel (body ++ c :: tr) = Ok (body ++ [c]).
Proof.
  intros Hc tr. induction tr as [|x tr IH] using rev_ind; intros fuel H L; (destruct fuel as [|fuel]; [lia|]); cbn [popBack].
  - rewrite rev_app_distr. cbn [rev app]. rewrite (delim_space c Hc), Hc. unfold is_space in Hc. apply orb_false_iff in Hc as [Hc _]. apply orb_false_iff in Hc as [Hc _].
    rewrite Hc. reflexivity.
  - replace (body ++ c :: tr ++ [x]) with ((body ++ c :: tr) ++ [x]) by (rewrite <- app_assoc; reflexivity). rewrite rev_app_distr. cbn [rev app].
    rewrite (H x) by (apply in_or_app; right; left; auto). cbn [orb]. rewrite removelast_snoc. apply IH.
    + intros y Hy. apply H, in_or_app; auto.
    + rewrite app_length in L. cbn in L. lia.
Qed.
Lemma filter_none (f : ascii -> bool) l : (forall x, In x l -> f x = false) -> filter f l = [].
Proof. induction l as [|x l IH]; intros H; auto. cbn [filter]. rewrite (H x) by (left; auto). apply IH. intros; apply H; right; auto. Qed.
Lemma lineOf_parts k s : lineOf k s -> exists body c tr, s = body ++ c :: tr /\ is_space c = false /\ (forall x, In x tr -> is_delim x = true) /\
  length (filter is_delim (body ++ [c])) + 1 = k.
Proof.
  induction 1 as [w tr Nw Hw Ht|w d k s Nw Hw Hd HL (body & c & tr & -> & Hc & Ht & E)].
  - destruct (@exists_last _ w Nw) as (body & c & ->). exists body, c, tr. rewrite <- app_assoc. split; auto.
    split; [apply num_not, Hw, in_or_app; right; left; auto|]. split; [intros x Hx; apply delim_iff; auto|].
    rewrite filter_none; auto. intros x Hx. apply num_not; auto.
  - exists (w ++ d :: body), c, tr. rewrite <- !app_assoc. split; auto. repeat (split; [assumption|]).
    cbn [app]. rewrite filter_app, (@filter_none _ w) by (intros x Hx; apply num_not; auto). cbn [app filter]. rewrite (proj2 (delim_iff d) Hd). cbn [length]. lia.
Qed.
Lemma lineOf_chars k s : lineOf k s -> forall c, In c s -> (is_number c = true \/ is_delim c = true) /\ c <> NL.
Proof.
  assert (D : forall c, delimiter c -> (is_number c = true \/ is_delim c = true) /\ c <> NL).
  { intros c Hc. apply delim_iff in Hc. split; auto. intros ->. discriminate. }
  assert (N : forall c, numberChar c -> (is_number c = true \/ is_delim c = true) /\ c <> NL).
  { intros c Hc. split; [left; apply number_iff; auto|apply num_not; auto]. }
  induction 1 as [w tr Nw Hw Ht|w d k s Nw Hw Hd HL IH]; intros c Hc; apply in_app_or in Hc; destruct Hc as [Hc|Hc]; auto.
  destruct Hc as [<-|Hc]; auto.
Qed.
Lemma lineOf_count k s : lineOf k s -> countEntry s = Ok k.
Proof.
  intros H. destruct (lineOf_parts H) as (body & c & tr & -> & Hc & Ht & E). unfold countEntry. rewrite popBack_trail; auto.
  - cbn [bind]. now rewrite E.
  - rewrite app_length. cbn [length]. lia.
Qed.
Lemma lineOf_plain k s : lineOf k s -> isGenericHeader s = false.
Proof.
  intros H. apply existsb_false. intros c Hc. destruct (proj1 (lineOf_chars H c Hc)) as [-> | ->]; auto. apply andb_false_r.
Qed.

(** C100: the dimension is the number of entries of the first line, or of the
    second if the first has a character that is none of a number. *)
Theorem C100_dimension : forall k line rest hdr c, lineOf k line ->
  readHeader (line ++ NL :: rest) = Ok k /\
  (In c hdr -> ~ numberChar c -> ~ delimiter c -> (forall x, In x hdr -> x <> NL) -> readHeader (hdr ++ NL :: line ++ NL :: rest) = Ok k).
Proof.
  intros k line rest hdr c H. assert (G : getline (line ++ NL :: rest) = (line, rest)) by (apply getline_nl; intros x Hx; apply (lineOf_chars H x Hx)).
  split.
  - unfold readHeader. rewrite G, (lineOf_plain H). apply lineOf_count; auto.
  - intros Hc Nn Nd Hn. unfold readHeader. rewrite getline_nl by auto.
    replace (isGenericHeader hdr) with true; [rewrite G; apply lineOf_count; auto|]. symmetry. apply existsb_exists. exists c. split; auto.
    destruct (is_number c) eqn:En; [exfalso; apply Nn, number_iff; auto|]. destruct (is_delim c) eqn:Ed; [exfalso; apply Nd, delim_iff; auto|]. reflexivity.
Qed.
Print Assumptions C100_dimension.

(** C100 refuted for a comma and a blank between two numbers, for lines that end
    in a carriage return, and for an empty first line. *)
Theorem C100_dimension_refuted : readHeader (txt "1, 2" ++ [NL]) = Ok 3 /\ readHeader (txt "1 2" ++ [CR; NL]) = UB /\ forall file, readHeader (NL :: file) = UB.
Proof. repeat split; reflexivity. Qed.
Print Assumptions C100_dimension_refuted.

Example C100_dimension_example : readHeader (txt "x y z" ++ [NL] ++ txt "1,2;-3e4 " ++ [NL]) = Ok 3.
Proof. reflexivity. Qed.
