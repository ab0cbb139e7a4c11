(** Model of the parallel 3D quickhull:
    include/convexHull3d/parallelQuickHull/{linkedFacet,hullImpl,quickHull}.h,
    initParallel of include/convexHull3d/initialize.h and
    src/convexHull3d/parallelQuickHull/hull.cpp.

    A vertex of the array [Q] and its [seeFacet] are the entries of the lists of
    points seen by the facets, as in H3Model.v: the code sets both together, and
    a vertex of no list has a null [seeFacet]. *)
From Verif Require Import Base Num Hull2dModel H3Model.
Set Implicit Arguments.

Section H3P.
  Variable K : Num.
  Notation num := (nT K).
  Notation pt := (v3 (nT K)).
  Notation fct := (fct K).
  Notation heap := (heap K).
  Notation edge := (edge K).
  Notation hull := (hull K).
  Notation vert := (v3 (nT K) * nat)%type.
  Variable eps : num.

  Definition mapR {X Y} (f : X -> res Y) : list X -> res (list Y) :=
    fix go l := match l with [] => Ok [] | x :: l' => y <- f x ;; ys <- go l' ;; Ok (y :: ys) end.

  (** hullImpl.h:127-138, initialize.h:213-230: the first facet to keep a point *)
  Fixpoint firstKeep (h : heap) (news : list nat) (v : pt) : res (option nat) :=
    match news with
    | [] => Ok None
    | k :: l => f <- getF h (Some k) ;; if keep eps f v then Ok (Some k) else firstKeep h l v
    end.
  Definition flagged (k : nat) (x : pt * option nat) : bool := match snd x with Some j => j =? k | None => false end.
  (** hullImpl.h:126-142, initialize.h:211-232: flags, split_k and reassign *)
  Definition splitTo (h : heap) (buf : list pt) (news : list nat) : res heap :=
    fl <- mapR (fun v => k <- firstKeep h news v ;; Ok (v, k)) buf ;;
    foldR (fun h k => f <- getF h (Some k) ;;
             Ok (upd k (Some (setSee f (map (fun x => (fst x, k)) (filter (flagged k) fl)))) h)) news h.
  (** hullImpl.h:104-143 *)
  Definition redistributePar (h : heap) (beneath news : list nat) : res heap :=
    bufs <- mapR (fun i => f <- getF h (Some i) ;; Ok (map fst (see f))) beneath ;;
    splitTo h (concat bufs) news.

  (** hullTopology.h:78-101 with a test for stopping that may itself go wrong *)
  Section Dfs.
    Variable A : Type.
    Variable fDo : A -> nat -> fct -> res A.
    Variable fStop : A -> res bool.
    Fixpoint dfsStop (fuel : nat) (h : heap) (S : list (option nat)) (V : list nat) (acc : A) : res A :=
      match fuel with
      | 0 => Fuel
      | S fuel' =>
        match S with
        | [] => Ok acc
        | None :: _ => UB
        | Some i :: S' =>
          if existsb (Nat.eqb i) V then b <- fStop acc ;; if b then Ok acc else dfsStop fuel' h S' V acc
          else
            f <- getF h (Some i) ;;
            acc' <- fDo acc i f ;;
            b <- fStop acc' ;;
            if b then Ok acc' else dfsStop fuel' h (fbc f :: fca f :: fab f :: S') (i :: V) acc'
        end
      end.
  End Dfs.

  (** linkedFacet.h:114-130: [choose i f] is the position found by max_element,
      or hash64(i) modulo the length; of an empty list nothing can be read *)
  Variable choose : nat -> fct -> nat.
  Definition apexIn (i : nat) (f : fct) : res vert := at_ (see f) (choose i f).
  (** hullImpl.h:145-155, 405-415: [apex] starts as a null pointer and the test
      for stopping reads through it *)
  Definition apexPar (h : heap) (f : nat) : res (option vert) :=
    dfsStop (fun (a : option vert) _ g => if length (see g) =? 0 then Ok a else v <- apexIn 0 g ;; Ok (Some v))
      (fun a => match a with Some _ => Ok true | None => UB end) (3 * length h + 2) h [Some f] [] None.

  (** The order in memory of the facets, that of the vertices in the array, and
      the order, at each round, of the iterations of the parallel loops. *)
  Variable addr : nat -> nat.
  Variable qord : list vert -> list vert.
  Variable shuf : nat -> forall X : Type, list X -> list X.

  (** hullImpl.h:251-271: the vertices that see a facet *)
  Definition conflicts (h : heap) : list vert := qord (flat_map (fun o => match o with Some f => see f | None => [] end) h).
  (** hullImpl.h:358-367: sort and unique *)
  Fixpoint insU (k : nat) (l : list nat) : list nat :=
    match l with
    | [] => [k]
    | j :: l' => if addr k <? addr j then k :: l else if addr j <? addr k then j :: insU k l' else l
    end.
  Definition sortU (l : list nat) : list nat := fold_right insU [] l.
  (** hullImpl.h:353-403 *)
  Definition apexes (n : nat) (h : heap) : res (list vert) :=
    let F := sortU (map snd (firstn n (conflicts h))) in
    mapR (fun x => f <- getF h (Some (snd x)) ;; apexIn (fst x) f) (combine (seq 0 (length F)) F).

  (** linkedFacet.h:61-70: the smallest address written; [None] is -1, the largest *)
  Definition resv := nat -> option nat.
  Definition wmin (rs : resv) (w : nat * nat) : resv := fun k =>
    if k =? fst w then Some (match rs k with None => snd w | Some a => Nat.min a (snd w) end) else rs k.
  Definition reserved (rs : resv) (a : vert) (k : nat) : bool := match rs k with Some x => x =? addr (snd a) | None => false end.

  (** One apex with its frontier and the facets beneath it *)
  Definition job : Type := (vert * list edge * list nat)%type.
  Definition frontierOf (h : heap) (a : vert) : res job := '(fr, fs) <- computeFrontier eps h a ;; Ok (a, fr, fs).
  Definition effs (fr : list edge) : list nat := flat_map (fun e => match eff e with Some k => [k] | None => [] end) fr.
  (** hullImpl.h:438-487: the facets reserved *)
  Definition writes (j : job) : list (nat * nat) := let '(a, fr, fs) := j in map (fun k => (k, addr (snd a))) (fs ++ effs fr).
  Definition around (h : heap) (k : nat) : res (list nat) :=
    f <- getF h (Some k) ;;
    match fab f, fbc f, fca f with
    | Some a, Some b, Some c => _ <- getF h (Some a) ;; _ <- getF h (Some b) ;; _ <- getF h (Some c) ;; Ok [k; a; b; c]
    | _, _, _ => UB
    end.
  Definition aroundAll (h : heap) (fs : list nat) : res (list nat) := l <- mapR (around h) fs ;; Ok (concat l).
  (** hullImpl.h:489-501 *)
  Definition confirm (h : heap) (rs : resv) (j : job) : res bool :=
    let '(a, fr, fs) := j in l <- aroundAll h fs ;; Ok (forallb (reserved rs a) l).
  (** quickHull.h:196-224: a broken frontier empties the list of the facet *)
  Definition check (rs : resv) (h : heap) (j : job) : res (heap * bool) :=
    let '(a, fr, fs) := j in
    ok <- confirm h rs j ;;
    if consecutive fr then Ok (h, ok)
    else f <- getF h (Some (snd a)) ;; Ok (upd (snd a) (Some (setSee f [])) h, false).
  Fixpoint checkAll (rs : resv) (h : heap) (js : list job) : res (heap * list job) :=
    match js with
    | [] => Ok (h, [])
    | j :: js' => '(h', b) <- check rs h j ;; '(h'', l) <- checkAll rs h' js' ;; Ok (h'', if b then j :: l else l)
    end.
  (** hullImpl.h:503-510 *)
  Definition resetAll (h : heap) (rs : resv) (js : list job) : res resv :=
    l <- mapR (fun j => aroundAll h (snd j)) js ;;
    Ok (fun k => if existsb (Nat.eqb k) (concat l) then None else rs k).

  (** quickHull.h:244-284: an iteration is run as a whole, and deletes the facets
      beneath its apex at once rather than in the loop that follows *)
  Definition process (s : hull) (j : job) : res hull :=
    let '(a, fr, fs) := j in
    h4 <- grow eps redistributePar (hh s) (fst a) fr fs ;;
    Ok (Hull h4 (length (hh s)) (hn s + length fr - length fs)).

  (** quickHull.h:155-288: a round of many apexes *)
  Definition roundPar (t n : nat) (s : hull) (rs : resv) : res (option (hull * resv)) :=
    if length (conflicts (hh s)) =? 0 then Ok None
    else
      aps <- apexes n (hh s) ;;
      if length aps =? 0 then Ok None
      else
        js <- mapR (frontierOf (hh s)) aps ;;
        let rs1 := fold_left wmin (shuf t (flat_map writes js)) rs in
        '(h1, good) <- checkAll rs1 (hh s) js ;;
        rs2 <- resetAll h1 rs1 js ;;
        s' <- foldR process (shuf t good) (Hull h1 (hH s) (hn s)) ;;
        Ok (Some (s', rs2)).

  (** quickHull.h:67-141: a round of one apex *)
  Definition roundOne (s : hull) : res (option hull) :=
    f0 <- (if hn s <? 512 then facetWalk s else Ok (hH s)) ;;
    oa <- apexPar (hh s) f0 ;;
    match oa with
    | None => Ok None
    | Some apex =>
      '(fr, fs) <- computeFrontier eps (hh s) apex ;;
      if negb (consecutive fr) then
        f <- getF (hh s) (Some (snd apex)) ;;
        Ok (Some (Hull (upd (snd apex) (Some (setSee f [])) (hh s)) (hH s) (hn s)))
      else s' <- process s (apex, fr, fs) ;; Ok (Some s')
    end.

  (** quickHull.h:58-292; [np] is numProc *)
  Fixpoint loopPar (fuel np : nat) (s : hull) (rs : resv) : res hull :=
    match fuel with
    | 0 => Fuel
    | S fuel' =>
      if hn s <? 64 then
        o <- roundOne s ;; match o with None => Ok s | Some s' => loopPar fuel' np s' rs end
      else
        o <- roundPar fuel' (np * 8) s rs ;; match o with None => Ok s | Some (s', rs') => loopPar fuel' np s' rs' end
    end.

  Variable minmax : (pt -> pt -> bool) -> list pt -> nat * nat.
  Variable maxel : (pt -> pt -> bool) -> list pt -> nat.
  (** initialize.h:132-244, hull.cpp:35-49 *)
  Definition initPar : list pt -> res (pt * hull) := initWith eps minmax maxel splitTo.
  Definition computePar (np : nat) (P : list pt) : res (list (tri K)) :=
    '(o, s) <- initPar P ;; s' <- loopPar (S (length P)) np s (fun _ => None) ;; getFacet o s'.
End H3P.
