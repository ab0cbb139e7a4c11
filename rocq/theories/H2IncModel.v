(** Model of the planar hull by parallel incremental insertion:
    src/convexHull2d/randInc/hull.cpp.  [area] is [triArea] (36-41). *)
From Verif Require Import Base Num Hull2dModel.
From Verif Require H3Model.
Set Implicit Arguments.

Section Inc.
  Variable K : Num.
  Notation num := (nT K).
  Notation pt := (nT K * nT K)%type.
  Variable eps : num.

  Definition area (a b c : pt) : num :=
    nsub K (nmul K (nsub K (fst b) (fst a)) (nsub K (snd c) (snd a)))
           (nmul K (nsub K (snd b) (snd a)) (nsub K (fst c) (fst a))).

  (** facet (hull.cpp:32-78): the points are indices of the vertex array, the
      token is the index of the vertex (the addresses are in this order) or none *)
  Record fac := Fac { fp1 : nat; fp2 : nat; fprev : nat; fnext : nat; fsee : list nat; ftok : option nat }.
  (** the facets allocated so far, none when deleted *)
  Definition heap := list (option fac).
  Definition getF (h : heap) (f : nat) : res fac := match nth_error h f with Some (Some x) => Ok x | _ => UB end.

  Section Run.
  Variable V : list pt.
  (** 74-76 *)
  Definition visibleFrom (x : fac) (p : pt) : res bool :=
    a <- at_ V (fp1 x) ;; b <- at_ V (fp2 x) ;; Ok (nlt K eps (area a b p)).

  (** 85 *)
  Fixpoint back (fuel : nat) (h : heap) (p : pt) (head : nat) : res nat :=
    match fuel with
    | 0 => Fuel
    | S fuel' => x <- getF h head ;; y <- getF h (fprev x) ;; v <- visibleFrom y p ;;
        if v : bool then back fuel' h p (fprev x) else Ok head
    end.
  (** 87-104 *)
  Fixpoint fwd (fuel : nat) (h : heap) (p : pt) (head ptr : nat) (start : option nat) : res (option (nat * nat)) :=
    match fuel with
    | 0 => Fuel
    | S fuel' => x <- getF h ptr ;; v <- visibleFrom x p ;;
        let go start' := if fnext x =? head then Ok None else fwd fuel' h p head (fnext x) start' in
        match start with
        | None => go (if v : bool then Some ptr else None)
        | Some s => if v : bool then go start else Ok (Some (s, ptr))
        end
    end.
  Definition findVisible (h : heap) (head : nat) (p : pt) : res (option (nat * nat)) :=
    hd <- back (length h) h p head ;; fwd (length h) h p hd hd None.

  (** do { visit ptr; ptr = ptr->next } while (ptr != stop) *)
  Fixpoint walk (fuel : nat) (h : heap) (ptr stop : nat) : res (list nat) :=
    match fuel with
    | 0 => Fuel
    | S fuel' => x <- getF h ptr ;;
        if fnext x =? stop then Ok [ptr] else r <- walk fuel' h (fnext x) stop ;; Ok (ptr :: r)
    end.

  Record st := St { sh : heap; ssee : list (option nat); sH : nat }.
  Definition seeFacet (s : st) (i : nat) : res nat := match nth_error (ssee s) i with Some (Some f) => Ok f | _ => UB end.
  Definition visOf (s : st) (i : nat) : res (option (nat * nat)) :=
    f <- seeFacet s i ;; p <- at_ V i ;; findVisible (sh s) f p.
  (** 253-265, 271-286: the facets a point reserves and checks *)
  Definition zone (s : st) (i : nat) : res (nat * list nat) :=
    r <- visOf s i ;;
    match r with
    | None => Ok (i, [])
    | Some (start, e) => x <- getF (sh s) start ;; y <- getF (sh s) e ;;
        z <- walk (length (sh s)) (sh s) (fprev x) (fnext y) ;; Ok (i, z)
    end.
  Definition withTok (x : fac) (t : option nat) : fac := Fac (fp1 x) (fp2 x) (fprev x) (fnext x) (fsee x) t.
  (** 52-55: one write_min *)
  Definition reserve (h : heap) (w : nat * nat) : res heap :=
    x <- getF h (snd w) ;;
    let better := match ftok x with None => true | Some j => fst w <? j end in
    Ok (if better then upd (snd w) (Some (withTok x (Some (fst w)))) h else h).
  (** 279-289: one check; the points that failed *)
  Definition check (hb : heap * list nat) (w : nat * nat) : res (heap * list nat) :=
    x <- getF (fst hb) (snd w) ;;
    let mine := match ftok x with Some j => j =? fst w | None => false end in
    Ok (if mine then (upd (snd w) (Some (withTok x None)) (fst hb), snd hb) else (fst hb, fst w :: snd hb)).

  (** 329-341 *)
  Definition pick (n1 n2 : fac) (q : nat) : res nat :=
    p <- at_ V q ;; v1 <- visibleFrom n1 p ;; if v1 : bool then Ok 0 else
    v2 <- visibleFrom n2 p ;; if v2 : bool then Ok 1 else Ok 2.
  Definition class (n1 n2 : fac) (q : nat) : res (nat * nat) := c <- pick n1 n2 q ;; Ok (q, c).
  Definition sees (id1 id2 : nat) (c : nat) : option nat := if c =? 0 then Some id1 else if c =? 1 then Some id2 else None.
  Definition chunk (c : nat) (l : list (nat * nat)) : list nat := map fst (filter (fun x => snd x =? c) l).

  (** 301-360 *)
  Definition process (s : st) (i : nat) : res st :=
    r <- visOf s i ;;
    match r with
    | None => Ok s
    | Some (start, e) =>
      let h := sh s in
      x <- getF h start ;; y <- getF h e ;;
      vs <- walk (length h) h start e ;;
      gone <- mapR (getF h) vs ;;
      let id1 := length h in let id2 := S (length h) in
      let n1 := Fac (fp1 x) i (fprev x) id2 [] None in
      let n2 := Fac i (fp1 y) id1 e [] None in
      cl <- mapR (class n1 n2) (concat (map fsee gone)) ;;
      let see := fold_left (fun l c => upd (fst c) (sees id1 id2 (snd c)) l) cl (upd i None (ssee s)) in
      let h1 := h ++ [Some (Fac (fp1 x) i (fprev x) id2 (chunk 0 cl) None); Some (Fac i (fp1 y) id1 e (chunk 1 cl) None)] in
      z <- getF h1 (fprev x) ;;
      let h2 := upd (fprev x) (Some (Fac (fp1 z) (fp2 z) (fprev z) id1 (fsee z) (ftok z))) h1 in
      w <- getF h2 e ;;
      let h3 := upd e (Some (Fac (fp1 w) (fp2 w) id2 (fnext w) (fsee w) (ftok w))) h2 in
      Ok (St (fold_left (fun h f => upd f None h) vs h3) see id1)
    end.

  Variable shuf : nat -> forall X, list X -> list X.
  Definition alive (s : st) (i : nat) : bool := match nth_error (ssee s) i with Some (Some _) => true | _ => false end.
  Definition writes (zs : list (nat * list nat)) : list (nat * nat) := flat_map (fun z => map (pair (fst z)) (snd z)) zs.
  (** 247-363: one batch *)
  Definition round (k batch : nat) (s : st) (mapping : list nat) : res (st * list nat) :=
    zs <- mapR (zone s) (firstn (Nat.min batch (length mapping)) mapping) ;;
    h1 <- H3Model.foldR reserve (shuf (3 * k) (writes zs)) (sh s) ;;
    '(h2, bad) <- H3Model.foldR check (shuf (3 * k + 1) (writes zs)) (h1, []) ;;
    let succ := map fst (filter (fun z => negb (length (snd z) =? 0) && negb (existsb (Nat.eqb (fst z)) bad)) zs) in
    s' <- H3Model.foldR process (shuf (3 * k + 2) succ) (St h2 (ssee s) (sH s)) ;;
    Ok (s', filter (alive s') mapping).
  Fixpoint loop (fuel k batch : nat) (s : st) (mapping : list nat) : res st :=
    match mapping with
    | [] => Ok s
    | _ => match fuel with
           | 0 => Fuel
           | S fuel' => '(s', m) <- round k batch s mapping ;; loop fuel' (S k) batch s' m
           end
    end.

  (** 158-176: the first of the four facets that sees the point *)
  Fixpoint firstSeen (fs : list fac) (p : pt) (i : nat) : res (option nat) :=
    match fs with [] => Ok None | x :: fs' => v <- visibleFrom x p ;; if v : bool then Ok (Some i) else firstSeen fs' p (S i) end.
  Definition seeing (i : nat) (l : list (option nat)) : list nat :=
    map fst (filter (fun x => match snd x with Some j => j =? i | None => false end) (combine (seq 0 (length l)) l)).
  Variable minmax : (pt -> pt -> bool) -> list pt -> nat * nat.
  Definition eqn (x y : num) : bool := nle K x y && nle K y x.
  (** 128-132 *)
  Definition xLt (a b : pt) : bool := nlt K (fst a) (fst b) || (eqn (fst a) (fst b) && nlt K (snd a) (snd b)).
  Definition yLt (a b : pt) : bool := nlt K (snd a) (snd b) || (eqn (snd a) (snd b) && nlt K (fst a) (fst b)).
  (** 134-195 *)
  Definition init : res st :=
    let '(xMin, xMax) := minmax xLt V in let '(yMin, yMax) := minmax yLt V in
    let fs := [Fac xMin yMax 3 1 [] None; Fac yMax xMax 0 2 [] None; Fac xMax yMin 1 3 [] None; Fac yMin xMin 2 0 [] None] in
    see <- mapR (fun p => firstSeen fs p 0) V ;;
    Ok (St [Some (Fac xMin yMax 3 1 (seeing 0 see) None); Some (Fac yMax xMax 0 2 (seeing 1 see) None);
            Some (Fac xMax yMin 1 3 (seeing 2 see) None); Some (Fac yMin xMin 2 0 (seeing 3 see) None)] see 0).
  (** 203-365 *)
  Definition hull (fuel workers numProc : nat) : res st :=
    s <- init ;;
    let batch := (if numProc =? 0 then workers else numProc) * 4 in
    loop fuel 0 batch s (filter (alive s) (seq 0 (length V))).
  (** 380: what is returned *)
  Definition compute (fuel workers numProc : nat) : res (list nat) := s <- hull fuel workers numProc ;; Ok [].
  (** the corners in the order of the list of facets *)
  Definition corners (s : st) : res (list nat) :=
    r <- walk (length (sh s)) (sh s) (sH s) (sH s) ;; mapR (fun f => x <- getF (sh s) f ;; Ok (fp1 x)) r.
  End Run.
End Inc.
