(** Model of the serial 3D hulls: src/convexHull3d/bruteforce/hull.cpp,
    include/convexHull3d/{facet,vertex,initialize,hullTopology}.h and
    include/convexHull3d/serialQuickHull/{linkedFacet,hullImpl,quickHull}.h
    with src/convexHull3d/serialQuickHull/hull.cpp. *)
From Verif Require Import Base Num Hull2dModel.
Set Implicit Arguments.

Record v3 (T : Type) := V3 { vx : T; vy : T; vz : T }.

Section H3.
  Variable K : Num.
  Notation num := (nT K).
  Notation pt := (v3 (nT K)).

  (** point.h:24, 1e-5 *)
  Variable eps : num.

  (** point.h:49-69, 89-94, 107-123; vertex.h:26-29; algebra.h:23-37 *)
  Definition sub3 (p q : pt) : pt := V3 (nsub K (vx p) (vx q)) (nsub K (vy p) (vy q)) (nsub K (vz p) (vz q)).
  Definition add3 (p q : pt) : pt := V3 (nadd K (vx p) (vx q)) (nadd K (vy p) (vy q)) (nadd K (vz p) (vz q)).
  Definition div3 (p : pt) (d : num) : pt := V3 (ndiv K (vx p) d) (ndiv K (vy p) d) (ndiv K (vz p) d).
  Definition eqn (a b : num) : bool := nle K a b && nle K b a.
  Definition eq3 (p q : pt) : bool := eqn (vx p) (vx q) && eqn (vy p) (vy q) && eqn (vz p) (vz q).
  Definition dot3 (p q : pt) : num :=
    nadd K (nadd K (nadd K (nzero K) (nmul K (vx p) (vx q))) (nmul K (vy p) (vy q))) (nmul K (vz p) (vz q)).
  Definition length3 (p : pt) : num := nsqrt K (dot3 p p).
  Definition cross3 (p q : pt) : pt :=
    V3 (nsub K (nmul K (vy p) (vz q)) (nmul K (vz p) (vy q)))
       (nsub K (nmul K (vz p) (vx q)) (nmul K (vx p) (vz q)))
       (nsub K (nmul K (vx p) (vy q)) (nmul K (vy p) (vx q))).
  Definition det3 (a b c : pt) : num :=
    nadd K (nsub K (nmul K (vx a) (nsub K (nmul K (vy b) (vz c)) (nmul K (vy c) (vz b))))
                   (nmul K (vy a) (nsub K (nmul K (vx b) (vz c)) (nmul K (vz b) (vx c)))))
           (nmul K (vz a) (nsub K (nmul K (vx b) (vy c)) (nmul K (vy b) (vx c)))).
  Definition abs3 (x : num) : num := if nlt K x (nzero K) then nsub K (nzero K) x else x.

  (** bruteforce/hull.cpp:20-33, linkedFacet.h:99-108:
      the corners of a new facet, and the volume against a point *)
  Definition tri : Type := (pt * pt * pt)%type.
  Definition mkTri (a b c : pt) : tri := if nlt K eps (det3 a b c) then (a, c, b) else (a, b, c).
  Definition vol (t : tri) (d : pt) : num := let '(a, b, c) := t in dot3 (sub3 a d) (cross3 (sub3 b a) (sub3 c a)).
  Definition sees (t : tri) (d : pt) : bool := nlt K eps (vol t d).
  (** facet.h:13-16 *)
  Definition outFacet (t : tri) : tri := let '(a, b, c) := t in if nlt K (nzero K) (det3 a b c) then (a, c, b) else (a, b, c).

  (** ** bruteforce/hull.cpp:42-80 *)
  Definition bruteOn (P : list pt) (i j k : nat) (t : tri) : bool :=
    match filter (fun l => negb ((fst l =? i) || (fst l =? j) || (fst l =? k))) (combine (seq 0 (length P)) P) with
    | [] => true
    | l0 :: ls => forallb (fun l => Bool.eqb (sees t (snd l)) (sees t (snd l0))) ls
    end.
  Definition brute3 (P : list pt) : list tri :=
    let iP := combine (seq 0 (length P)) P in
    flat_map (fun i => flat_map (fun j => flat_map (fun k =>
      if (fst i <? fst j) && (fst j <? fst k) then
        let t := mkTri (snd i) (snd j) (snd k) in
        if bruteOn P (fst i) (fst j) (fst k) t then [outFacet t] else []
      else []) iP) iP) iP.

  (** ** Linked facets.  Memory is an array of facets, [None] once deleted; an
      address is an index. *)
  Record fct := Fct {
    fa : pt; fb : pt; fc : pt;
    fab : option nat; fbc : option nat; fca : option nat;
    see : list (pt * nat) }.       (* the point and its [seeFacet] *)
  Definition heap := list (option fct).

  Definition getF (h : heap) (a : option nat) : res fct :=
    match a with
    | None => UB
    | Some i => match nth_error h i with Some (Some f) => Ok f | _ => UB end
    end.
  Definition corners (f : fct) : tri := (fa f, fb f, fc f).
  (** linkedFacet.h:99-108; the links start uninitialised *)
  Definition newFct (a b c : pt) : fct :=
    let '(a', b', c') := mkTri a b c in Fct a' b' c' None None None [].
  Definition setSee (f : fct) (l : list (pt * nat)) : fct := Fct (fa f) (fb f) (fc f) (fab f) (fbc f) (fca f) l.
  Definition setAb (f : fct) (g : nat) : fct := Fct (fa f) (fb f) (fc f) (Some g) (fbc f) (fca f) (see f).
  Definition setBc (f : fct) (g : nat) : fct := Fct (fa f) (fb f) (fc f) (fab f) (Some g) (fca f) (see f).
  Definition setCa (f : fct) (g : nat) : fct := Fct (fa f) (fb f) (fc f) (fab f) (fbc f) (Some g) (see f).
  (** hullTopology.h:72-74; initialize.h:94-100, hullImpl.h:59-64 *)
  Definition visible (f : fct) (p : pt) : bool := sees (corners f) p.
  Definition keep (f : fct) (p : pt) : bool :=
    visible f p && negb (eq3 (fa f) p) && negb (eq3 (fb f) p) && negb (eq3 (fc f) p).

  (** hullTopology.h:78-101 with [fVisit] true; the hash table is a set *)
  Section Dfs.
    Variable A : Type.
    Variable fDo : A -> nat -> fct -> A.
    Variable fStop : A -> bool.
    Fixpoint dfsFacet (fuel : nat) (h : heap) (S : list (option nat)) (V : list nat) (acc : A) : res A :=
      match fuel with
      | 0 => Fuel
      | S fuel' =>
        match S with
        | [] => Ok acc
        | None :: _ => UB
        | Some i :: S' =>
          if existsb (Nat.eqb i) V then if fStop acc then Ok acc else dfsFacet fuel' h S' V acc
          else
            f <- getF h (Some i) ;;
            let acc' := fDo acc i f in
            if fStop acc' then Ok acc' else dfsFacet fuel' h (fbc f :: fca f :: fab f :: S') (i :: V) acc'
        end
      end.
    Definition dfsF (h : heap) (start : nat) (acc : A) : res A := dfsFacet (3 * length h + 2) h [Some start] [] acc.
  End Dfs.

  (** hullTopology.h:253-263 *)
  Record edge := Edge { ea : pt; eb : pt; eff : option nat; efb : option nat }.
  Definition edgeEq (e : edge) (v : pt * pt) : bool := eq3 (ea e) (fst v) && eq3 (eb e) (snd v).

  (** hullTopology.h:144-156, top of the stack first *)
  Definition pushEdges (f : fct) (e : edge) : list edge :=
    let ab := Edge (fa f) (fb f) (fab f) (eff e) in
    let bc := Edge (fb f) (fc f) (fbc f) (eff e) in
    let ca := Edge (fc f) (fa f) (fca f) (eff e) in
    if eq3 (fa f) (eb e) then [bc; ca; ab]
    else if eq3 (fb f) (eb e) then [ca; ab; bc]
    else if eq3 (fc f) (eb e) then [ab; bc; ca]
    else [].

  (** hullTopology.h:294-316 *)
  Definition fVisit (h : heap) (p : pt) (e : edge) : res bool :=
    match efb e with None => Ok true | Some _ => f <- getF h (efb e) ;; Ok (visible f p) end.
  Definition fDoE (h : heap) (p : pt) (e : edge) (fr : list edge) (fs : list nat) : res (list edge * list nat) :=
    ff <- getF h (eff e) ;;
    let seeff := visible ff p in
    let i := match eff e with Some i => i | None => 0 end in
    let start := match efb e with None => true | _ => false end in
    let fs' := if (seeff || start) && negb (existsb (Nat.eqb i) fs) then fs ++ [i] else fs in
    if start then Ok (fr, fs')
    else
      f <- getF h (efb e) ;;
      Ok (if visible f p && negb seeff then fr ++ [e] else fr, fs').

  (** hullTopology.h:110-160 called from 281-321 *)
  Fixpoint dfsEdge (fuel : nat) (h : heap) (p : pt) (S : list edge) (V : list (pt * pt)) (fr : list edge) (fs : list nat) :
    res (list edge * list nat) :=
    match fuel with
    | 0 => Fuel
    | S fuel' =>
      match S with
      | [] => Ok (fr, fs)
      | e :: S' =>
        if existsb (edgeEq e) V then dfsEdge fuel' h p S' V fr fs
        else
          v <- fVisit h p e ;;
          if v then
            '(fr', fs') <- fDoE h p e fr fs ;;
            f <- getF h (eff e) ;;
            dfsEdge fuel' h p (pushEdges f e ++ S') ((ea e, eb e) :: V) fr' fs'
          else dfsEdge fuel' h p S' V fr fs
      end
    end.
  Definition computeFrontier (h : heap) (apex : pt * nat) : res (list edge * list nat) :=
    s <- getF h (Some (snd apex)) ;;
    dfsEdge (9 * length h + 5) h (fst apex) [Edge (fb s) (fa s) (Some (snd apex)) None] [] [] [].

  (** hullTopology.h:208-240 *)
  Definition hasEdge (f : fct) (v1 v2 : pt) : bool :=
    (eq3 (fa f) v1 && eq3 (fb f) v2) || (eq3 (fb f) v1 && eq3 (fa f) v2) ||
    (eq3 (fb f) v1 && eq3 (fc f) v2) || (eq3 (fc f) v1 && eq3 (fb f) v2) ||
    (eq3 (fc f) v1 && eq3 (fa f) v2) || (eq3 (fa f) v1 && eq3 (fc f) v2).
  Fixpoint findFacet (h : heap) (F : list (option nat)) (v1 v2 : pt) : res nat :=
    match F with
    | [] => Throw
    | g :: F' => f <- getF h g ;; if hasEdge f v1 v2 then match g with Some i => Ok i | None => UB end else findFacet h F' v1 v2
    end.
  Definition linkEdge (h : heap) (f1 f2 : nat) (v1 v2 : pt) : res heap :=
    f <- getF h (Some f2) ;;
    if (eq3 (fa f) v1 && eq3 (fb f) v2) || (eq3 (fa f) v2 && eq3 (fb f) v1) then Ok (upd f2 (Some (setAb f f1)) h)
    else if (eq3 (fb f) v1 && eq3 (fc f) v2) || (eq3 (fb f) v2 && eq3 (fc f) v1) then Ok (upd f2 (Some (setBc f f1)) h)
    else if (eq3 (fc f) v1 && eq3 (fa f) v2) || (eq3 (fc f) v2 && eq3 (fa f) v1) then Ok (upd f2 (Some (setCa f f1)) h)
    else Throw.
  Definition linkSide (set : fct -> nat -> fct) (u v : fct -> pt) (h : heap) (f : nat) (F : list (option nat)) : res heap :=
    x <- getF h (Some f) ;;
    g <- findFacet h F (u x) (v x) ;;
    linkEdge (upd f (Some (set x g)) h) f g (u x) (v x).
  Definition linkFacet (h : heap) (f : nat) (F : list (option nat)) : res heap :=
    h1 <- linkSide setAb fa fb h f F ;;
    h2 <- linkSide setBc fb fc h1 f F ;;
    linkSide setCa fc fa h2 f F.

  (** linkedFacet.h:71-83: the maximum starts at eps *)
  Definition furthest (f : fct) : option (pt * nat) :=
    snd (fold_left (fun (a : num * option (pt * nat)) v =>
                      let m2 := vol (corners f) (fst v) in
                      if nlt K (fst a) m2 then (m2, Some v) else a) (see f) (eps, None)).

  (** The state: memory, the entry facet, the size. *)
  Record hull := Hull { hh : heap; hH : nat; hn : nat }.

  (** hullImpl.h:92-119 *)
  Definition facetWalk (s : hull) : res nat :=
    f <- getF (hh s) (Some (hH s)) ;;
    r <- dfsF (fun (a : nat * nat) i g => if fst a <? length (see g) then (length (see g), i) else a) (fun _ => false)
           (hh s) (hH s) (length (see f), hH s) ;;
    Ok (snd r).
  Definition furthestApex (s : hull) (f : nat) : res (option (pt * nat)) :=
    dfsF (fun (a : option (pt * nat)) _ g => if length (see g) =? 0 then a else furthest g)
         (fun a => match a with Some _ => true | None => false end) (hh s) f None.

  (** hullImpl.h:66-90 *)
  Definition place1 (news : list nat) (h : heap) (v : pt) : res heap :=
    (fix go (l : list nat) : res heap :=
       match l with
       | [] => Ok h
       | k :: l' =>
         f <- getF h (Some k) ;;
         if keep f v then Ok (upd k (Some (setSee f (see f ++ [(v, k)]))) h) else go l'
       end) news.
  Fixpoint foldR {X Y} (f : Y -> X -> res Y) (l : list X) (y : Y) : res Y :=
    match l with [] => Ok y | x :: l' => y' <- f y x ;; foldR f l' y' end.
  Definition redistribute (h : heap) (beneath news : list nat) : res heap :=
    foldR (fun h i => f <- getF h (Some i) ;; foldR (place1 news) (map fst (see f)) h) beneath h.

  (** quickHull.h:91-103 *)
  Definition consecutive (fr : list edge) : bool :=
    forallb (fun i => match nth_error fr i, nth_error fr ((i + 1) mod length fr) with
                      | Some cv, Some nv => eq3 (eb cv) (ea nv)
                      | _, _ => false
                      end) (seq 0 (length fr)).

  (** quickHull.h:105-131: the new facets, linked, take the points of those
      beneath the apex, which are deleted; [redis] moves the points *)
  Definition grow (redis : heap -> list nat -> list nat -> res heap) (h : heap) (p : pt) (fr : list edge) (fs : list nat) : res heap :=
    let m := length fr in
    let n0 := length h in
    let news := seq n0 m in
    let h1 := h ++ map (fun e => Some (newFct (ea e) (eb e) p)) fr in
    h2 <- foldR (fun h i =>
            match nth_error fr i with
            | Some e => linkFacet h (n0 + i) [Some (n0 + (i + 1) mod m); eff e; Some (n0 + (i + m - 1) mod m)]
            | None => UB
            end) (seq 0 m) h1 ;;
    if m =? 0 then UB
    else
      h3 <- redis h2 fs news ;;
      foldR (fun h i => f <- getF h (Some i) ;; Ok (upd i None h)) fs h3.

  (** quickHull.h:68-136: one turn of the loop; [None] when there is no apex *)
  Definition round (s : hull) : res (option hull) :=
    f0 <- (if hn s <? 512 then facetWalk s else Ok (hH s)) ;;
    oa <- furthestApex s f0 ;;
    match oa with
    | None => Ok None
    | Some apex =>
      '(fr, fs) <- computeFrontier (hh s) apex ;;
      if negb (consecutive fr) then
        f <- getF (hh s) (Some (snd apex)) ;;
        Ok (Some (Hull (upd (snd apex) (Some (setSee f [])) (hh s)) (hH s) (hn s)))
      else
        h4 <- grow redistribute (hh s) (fst apex) fr fs ;;
        Ok (Some (Hull h4 (length (hh s)) (hn s + length fr - length fs)))
    end.
  Fixpoint quickLoop (fuel : nat) (s : hull) : res hull :=
    match fuel with
    | 0 => Fuel
    | S fuel' => o <- round s ;; match o with None => Ok s | Some s' => quickLoop fuel' s' end
    end.

  (** ** initialize.h:31-129.  [minmax] and [maxel] are the positions found by
      minmax_element_serial and max_element_serial. *)
  Variable minmax : (pt -> pt -> bool) -> list pt -> nat * nat.
  Variable maxel : (pt -> pt -> bool) -> list pt -> nat.
  Definition four : num := nadd K (ntwo K) (ntwo K).

  Definition initSimplex (P : list pt) : res (nat * nat * nat * nat) :=
    let mx := minmax (fun i j => nlt K (vx i) (vx j)) P in
    let my := minmax (fun i j => nlt K (vy i) (vy j)) P in
    let mz := minmax (fun i j => nlt K (vz i) (vz j)) P in
    x0 <- at_ P (fst mx) ;; x1 <- at_ P (snd mx) ;;
    y0 <- at_ P (fst my) ;; y1 <- at_ P (snd my) ;;
    z0 <- at_ P (fst mz) ;; z1 <- at_ P (snd mz) ;;
    let dx := nsub K (vx x1) (vx x0) in
    let dy := nsub K (vy y1) (vy y0) in
    let dz := nsub K (vz z1) (vz z0) in
    let '(c1, c2) := if nlt K dy dx && nlt K dz dx then mx
                     else if nlt K dx dy && nlt K dz dy then my else mz in
    p1 <- at_ P c1 ;; p2 <- at_ P c2 ;;
    let len i := length3 (cross3 (sub3 p1 i) (sub3 p2 i)) in
    let c3 := maxel (fun i j => nlt K (len i) (len j)) P in
    p3 <- at_ P c3 ;;
    let area := cross3 (sub3 p1 p3) (sub3 p2 p3) in
    let av i := abs3 (dot3 (sub3 p3 i) area) in
    let c4 := maxel (fun i j => nlt K (av i) (av j)) P in
    Ok (c1, c2, c3, c4).

  Definition interior (p1 p2 p3 p4 : pt) : pt := div3 (add3 (add3 (add3 p1 p2) p3) p4) four.
  (** [dist] gives the points to the first four facets *)
  Definition initWith (dist : heap -> list pt -> list nat -> res heap) (P : list pt) : res (pt * hull) :=
    '(c1, c2, c3, c4) <- initSimplex P ;;
    p1 <- at_ P c1 ;; p2 <- at_ P c2 ;; p3 <- at_ P c3 ;; p4 <- at_ P c4 ;;
    let o := interior p1 p2 p3 p4 in
    let Q := map (fun p => sub3 p o) P in
    q1 <- at_ Q c1 ;; q2 <- at_ Q c2 ;; q3 <- at_ Q c3 ;; q4 <- at_ Q c4 ;;
    let h0 := [Some (newFct q1 q2 q3); Some (newFct q1 q2 q4); Some (newFct q3 q4 q2); Some (newFct q3 q4 q1)] in
    h1 <- dist h0 Q [0; 1; 2; 3] ;;
    h2 <- linkFacet h1 0 [Some 1; Some 2; Some 3] ;;
    h3 <- linkFacet h2 1 [Some 0; Some 2; Some 3] ;;
    h4 <- linkFacet h3 2 [Some 1; Some 0; Some 3] ;;
    h5 <- linkFacet h4 3 [Some 1; Some 2; Some 0] ;;
    Ok (o, Hull h5 0 4).
  Definition init : list pt -> res (pt * hull) := initWith (fun h Q news => foldR (place1 news) Q h).

  (** hullTopology.h:402-428 *)
  Definition getFacet (o : pt) (s : hull) : res (list tri) :=
    dfsF (fun acc _ f => acc ++ [outFacet (add3 (fa f) o, add3 (fb f) o, add3 (fc f) o)]) (fun _ => false) (hh s) (hH s) [].
  Fixpoint uniqueFrom (x : pt) (l : list pt) : list pt :=
    match l with
    | [] => []
    | y :: l' => if eq3 x y then uniqueFrom y l' else y :: uniqueFrom y l'
    end.
  Definition unique (l : list pt) : list pt := match l with [] => [] | x :: l' => x :: uniqueFrom x l' end.
  Variable sort : (pt -> pt -> bool) -> list pt -> list pt.
  (** point.h:75-83 *)
  Definition sum3 (p : pt) : num := nadd K (nadd K (nadd K (nzero K) (vx p)) (vy p)) (vz p).
  Definition less3 (p q : pt) : bool := nlt K (sum3 p) (sum3 q).
  Definition getVertex (o : pt) (s : hull) : res (list pt) :=
    out <- dfsF (fun acc _ f => acc ++ [add3 (fa f) o; add3 (fb f) o; add3 (fc f) o]) (fun _ => false) (hh s) (hH s) [] ;;
    Ok (unique (sort less3 out)).

  (** serialQuickHull/hull.cpp:15-53 *)
  Definition quickHull3 (P : list pt) : res (pt * hull) :=
    '(o, s) <- init P ;; s' <- quickLoop (S (length P)) s ;; Ok (o, s').
  Definition compute (P : list pt) : res (list tri) :=
    if length P <=? 10 then Ok (brute3 P)
    else '(o, s) <- quickHull3 P ;; getFacet o s.
  Definition computeVertex (P : list pt) : res (list pt) := '(o, s) <- quickHull3 P ;; getVertex o s.
End H3.
