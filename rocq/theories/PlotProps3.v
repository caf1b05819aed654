(** Properties of make_2d_normal_mesh (C99), plot_contours (C97) and plotChain (C100). *)
Set Warnings "-notation-overridden,-ambiguous-paths".
From mathcomp Require Import all_ssreflect all_algebra.
From mathcomp.algebra_tactics Require Import ring.
From Coq Require Import String.
From Verif Require Import Py Nd LinAlg Dmx LgpModel UtilModel UtilModel2 UtilProps2 PlotModel.
Set Implicit Arguments. Unset Strict Implicit. Unset Printing Implicit Defensive.
Import Order.Theory GRing.Theory Num.Theory.
Local Open Scope ring_scope.

Section Mesh.
Variable R : realFieldType.

(** Coordinate number i of n equispaced points from -w to w. *)
Definition ntick n (w : R) (i : nat) : R := if n == 1%N then - w else - w + 2%:R * w * i%:R / n.-1%:R.

Lemma linspace_normal (w : R) n : linspace (- w) w (Posz n) = Ok [seq ntick n w i | i <- iota 0 n].
Proof.
rewrite /linspace; congr Ok; apply/eq_in_map => i; rewrite mem_iota add0n /= => hi.
rewrite /ntick; case: eqP => [e|_]; last by ring.
by move: hi; rewrite e ltnS leqn0 => /eqP ->; rewrite mul0r addr0.
Qed.

(** C99: for every N >= 0 and window w, make_2d_normal_mesh returns the N x N tables of the
    coordinates and the N*N points of the square [-w, w]^2, the first coordinate running fastest. *)
Theorem C99_normal_mesh n (w : R) : exists X Y pts,
  [/\ make_2d_normal_mesh (Posz n) w = Ok (X, Y, pts), size pts = (n * n)%N,
      (forall k, (k < n * n)%N -> nth (0, 0) pts k = (ntick n w (k %% n), ntick n w (k %/ n))),
      [/\ size X = n, size Y = n, all (fun q => size q == n) X & all (fun q => size q == n) Y] &
      forall i j, (i < n)%N -> (j < n)%N ->
        nth 0 (nth [::] X i) j = ntick n w j /\ nth 0 (nth [::] Y i) j = ntick n w i].
Proof.
rewrite /make_2d_normal_mesh linspace_normal /=.
set xs := [seq ntick n w i | i <- iota 0 n].
have sx : size xs = n by rewrite size_map size_iota.
set X := [seq xs | _ <- xs]; set Y := [seq nseq (size xs) b | b <- xs].
have sX : size X = n by rewrite size_map.
have sY : size Y = n by rewrite size_map.
have aX : all (fun q => size q == n) X by rewrite all_map; apply/allP => z _ /=; rewrite sx.
have aY : all (fun q => size q == n) Y.
  by rewrite all_map; apply/allP => z _ /=; rewrite size_nseq sx.
have nx i : (i < n)%N -> nth 0 xs i = ntick n w i.
  by move=> hi; rewrite (nth_map 0%N) ?size_iota // nth_iota.
have E i j : (i < n)%N -> (j < n)%N ->
    nth 0 (nth [::] X i) j = ntick n w j /\ nth 0 (nth [::] Y i) j = ntick n w i.
  move=> hi hj; have -> : nth [::] X i = xs by rewrite /X (nth_map 0) ?sx.
  have -> : nth [::] Y i = nseq n (ntick n w i) by rewrite /Y (nth_map 0) ?sx // nx.
  by rewrite nx // nth_nseq hj.
have szX : size (flatten X) = (n * n)%N by rewrite (size_flatten_nseq aX) sX.
have szY : size (flatten Y) = (n * n)%N by rewrite (size_flatten_nseq aY) sY.
exists X, Y, (zip (flatten X) (flatten Y)); split=> //.
- by rewrite size1_zip szX ?szY.
- move=> k hk; have n0 : (0 < n)%N by case: n hk {w xs sx X Y sX sY aX aY nx E szX szY}.
  rewrite nth_zip ?szX ?szY // (nth_flatten_nseq _ aX) ?sX // (nth_flatten_nseq _ aY) ?sY //.
  by have [|-> ->] := E (k %/ n)%N (k %% n)%N _ (ltn_pmod _ n0); first rewrite ltn_divLR.
Qed.

(** C99: for N >= 2 the coordinates go from -w to w, symmetrically and, for a positive window,
    increasingly. *)
Theorem C99_ticks n (w : R) : (1 < n)%N ->
  [/\ ntick n w 0 = - w, ntick n w n.-1 = w,
      forall i, (i < n)%N -> ntick n w (n.-1 - i) = - ntick n w i &
      0 < w -> forall i j, (i < j)%N -> ntick n w i < ntick n w j].
Proof.
rewrite /ntick; case: n => [|[|n]] //= _.
have n0 : n.+1%:R != 0 :> R by rewrite pnatr_eq0.
rewrite mulr0 mul0r addr0 mulfK //; split=> //; first by ring.
  move=> i hi; rewrite natrB //; apply: (mulIf n0); rewrite mulrDl mulNr divfK //.
  by rewrite !(mulNr, mulrDl) divfK //; ring.
move=> w0 i j ij; rewrite ltr_add2l ltr_pmul2r ?invr_gt0 ?ltr0n // ltr_pmul2l ?ltr_nat //.
by rewrite mulr_gt0 ?ltr0n.
Qed.

(** C99: one point: the corner (-w, -w); a negative number: ValueError. *)
Theorem C99_small (w : R) : make_2d_normal_mesh 1 w = Ok ([:: [:: - w]], [:: [:: - w]], [:: (- w, - w)]) /\
  forall k, make_2d_normal_mesh (Negz k) w = Err ValueError.
Proof. by split=> //; rewrite /make_2d_normal_mesh /= mul0r addr0. Qed.
End Mesh.

Lemma rmapM_nth A B (x0 : A) (y0 : B) (f : A -> res B) s ys : size ys = size s ->
  (forall i, (i < size s)%N -> f (nth x0 s i) = Ok (nth y0 ys i)) -> rmapM f s = Ok ys.
Proof.
elim: s ys => [|x s ih] [|y ys] //= [sz] H; rewrite (H 0%N) //= (ih ys) //.
by move=> i hi; apply: (H i.+1).
Qed.

Section Contours.
Variable R : realFieldType.
Variable ns : seq R -> res (seq (seq R)).
Notation plot_contours := (plot_contours ns).

Definition dot (a x : seq R) : R := \sum_(i < size a) nth 0 a i * nth 0 x i.

(** What scipy's null_space guarantees of a row with two entries, not both zero: one column,
    orthogonal to the row, of unit length. *)
Definition null_space_ok (a v : seq R) : Prop :=
  [/\ ns a = Ok [:: v], size v = 2%N, dot a v = 0 & dot v v = 1].

(** C97: for a map with two-entry rows, a reference point of at least two coordinates, and the
    rows given by [subset] (all rows by default, negative numbers counted from the end), one
    line is drawn per entry of subset, in this order, labelled with the entry plus one, from
    (r0 - w v0, r0 - w v1) to (r1 + w v0, r1 + w v1), v being the null vector of that row. *)
Theorem C97_lines A ref subset w (vs : seq (seq R)) : (1 < size ref)%N ->
  let labels := if subset is Some l then l else [seq Posz i | i <- iota 0 (size A)] in
  labels <> [::] -> size vs = size labels ->
  (forall j, (j < size labels)%N -> exists k, [/\ py_index (size A) (nth 0 labels j) = Ok k,
     ns (nth [::] A k) = Ok [:: nth [::] vs j] & size (nth [::] vs j) = 2%N]) ->
  let r0 := nth 0 ref 0 in let r1 := nth 0 ref 1 in
  plot_contours A ref subset w =
  Ok [seq (([:: r0 - w * nth 0 p.1 0; r1 + w * nth 0 p.1 0], [:: r0 - w * nth 0 p.1 1; r1 + w * nth 0 p.1 1]),
           p.2 + 1) | p <- zip vs labels].
Proof.
move=> hr labels l0 sv H r0 r1.
pose key j := if py_index (size A) j is Ok k then k else 0%N.
have pk j : (j < size labels)%N -> py_index (size A) (nth 0 labels j) = Ok (key (nth 0 labels j)).
  by move=> hj; rewrite /key; have [k [-> _ _]] := H j hj.
have picked : pick_rows A subset = Ok [seq nth [::] A (key j) | j <- labels].
  rewrite /pick_rows; case: (subset) @labels l0 sv H pk => [[|l0 l]|] labels // nl sv H pk.
    have -> : rmapM (py_index (size A)) (l0 :: l) = Ok [seq key j | j <- labels].
      by apply: (@rmapM_nth int nat 0 0%N); rewrite ?size_map // => i hi; rewrite pk // (nth_map 0).
    by cbn [rbind]; rewrite -map_comp.
  congr Ok; apply: (@eq_from_nth _ [::]); first by rewrite !size_map size_iota.
  move=> i hi; rewrite (nth_map 0) /labels ?size_map ?size_iota // (nth_map 0%N) ?size_iota // nth_iota // add0n.
  by rewrite /key /= hi.
rewrite /PlotModel.plot_contours picked; cbn [rbind].
have E : rmapM ns [seq nth [::] A (key j) | j <- labels] = Ok [seq [:: v] | v <- vs].
  apply: (@rmapM_nth (seq R) (seq (seq R)) [::] [::]); rewrite !size_map // => j hj; rewrite (nth_map 0) // (nth_map [::]) ?sv //.
  by have [k [h1 h2 _]] := H j hj; have := pk j hj; rewrite h1 => -[<-].
rewrite E; cbn [rbind]; rewrite -/labels.
have -> : flatten [seq [:: v] | v <- vs] = vs by elim: (vs) => //= v vs' ->.
case e: [seq _ | _ <- labels]; first by case: (labels) l0 e.
apply: (@rmapM_nth (nat * int) (line R * int) (0%N, 0) (([::], [::]), 0)).
  by rewrite size_map !size_zip size_iota sv minnn.
move=> j; rewrite size_zip size_iota minnn => hj.
rewrite (nth_map ([::] : seq R, 0 : int)) ?size_zip ?sv ?minnn //.
rewrite !nth_zip ?size_iota ?sv // nth_iota // add0n; cbn [fst snd]; rewrite hj; cbn [rbind].
have [k [_ _ h3]] := H j hj.
by rewrite /contour_line /get h3 hr (ltn_trans (ltnSn 0) hr).
Qed.

(** C97: the ends of such a line are points of the contour a.x = a.ref of its row
    exactly when the two coordinates of the reference point are equal. *)
Theorem C97_on_contour_iff (a ref v : seq R) w x y : size a = 2%N -> size ref = 2%N -> size v = 2%N ->
  a <> nseq 2 0 -> dot a v = 0 -> contour_line ref v w = Ok (x, y) ->
  (forall i, (i < 2)%N -> dot a [:: nth 0 x i; nth 0 y i] = dot a ref) <-> nth 0 ref 0 = nth 0 ref 1.
Proof.
case: a => [|a0 [|a1 []]] //; case: ref => [|r0 [|r1 []]] //; case: v => [|v0 [|v1 []]] // _ _ _.
rewrite /dot /= !big_ord_recr !big_ord0 /= !add0r => nz av [<- <-]; split; last first.
  move=> -> [|[|i]] // _; rewrite /= !big_ord_recr !big_ord0 /= !add0r.
    by rewrite -[RHS](subr0) -[0](mulr0 w) -av; ring.
  by rewrite -[RHS](addr0) -[0](mulr0 w) -av; ring.
move=> H; have := H 0%N isT; have := H 1%N isT; rewrite /= !big_ord_recr !big_ord0 /= !add0r.
move=> e1 e0.
have h1 : a0 * (r1 - r0) = 0.
  have -> : a0 * (r1 - r0) = (a0 * (r1 + w * v0) + a1 * (r1 + w * v1)) - (a0 * r0 + a1 * r1) - w * (a0 * v0 + a1 * v1) by ring.
  by rewrite e1 av; ring.
have h0 : a1 * (r0 - r1) = 0.
  have -> : a1 * (r0 - r1) = (a0 * (r0 - w * v0) + a1 * (r0 - w * v1)) - (a0 * r0 + a1 * r1) + w * (a0 * v0 + a1 * v1) by ring.
  by rewrite e0 av; ring.
move/eqP: h1; rewrite mulf_eq0 subr_eq0 => /orP[/eqP a00|/eqP -> //].
move/eqP: h0; rewrite mulf_eq0 subr_eq0 => /orP[/eqP a10|/eqP //].
by case: nz; rewrite a00 a10.
Qed.

(** C97: if they are equal, the line is centred at the reference point and has length 2|w|. *)
Theorem C97_centred (ref v : seq R) w x y : size ref = 2%N -> size v = 2%N -> dot v v = 1 ->
  nth 0 ref 0 = nth 0 ref 1 -> contour_line ref v w = Ok (x, y) ->
  [/\ nth 0 x 0 + nth 0 x 1 = 2%:R * nth 0 ref 0, nth 0 y 0 + nth 0 y 1 = 2%:R * nth 0 ref 1 &
      (nth 0 x 1 - nth 0 x 0) ^+ 2 + (nth 0 y 1 - nth 0 y 0) ^+ 2 = (2%:R * w) ^+ 2].
Proof.
case: ref => [|r0 [|r1 []]] //; case: v => [|v0 [|v1 []]] // _ _.
rewrite /dot /= !big_ord_recr !big_ord0 /= !add0r => vv <- [<- <-]; split=> /=; [by ring | by ring |].
transitivity ((2%:R * w) ^+ 2 * (v0 * v0 + v1 * v1)); first by ring.
by rewrite vv mulr1.
Qed.

(** C97: errors.  An empty subset: IndexError (an empty list is not an index array); a row
    number out of range: IndexError; no rows at all: ValueError; a reference point with fewer than two coordinates: IndexError. *)
Theorem C97_errors A ref w :
  [/\ plot_contours A ref (Some [::]) w = Err IndexError,
      forall l j, j \in l -> ~~ ((- (size A)%:Z <= j) && (j < (size A)%:Z)) ->
        plot_contours A ref (Some l) w = Err IndexError,
      plot_contours [::] ref None w = Err ValueError &
      forall a A' v vs, A = a :: A' -> rmapM ns A = Ok ((v :: vs.1) :: vs.2) -> (1 < size v)%N ->
        (size ref < 2)%N -> plot_contours A ref None w = Err IndexError].
Proof.
split=> //.
- move=> l j jl bad.
  have E : rmapM (py_index (size A)) l = Err IndexError.
    have idx i : py_index (size A) i = Err IndexError \/ exists k, py_index (size A) i = Ok k.
      by case: i => k /=; case: ifP; [right; exists k | left | right; eexists; reflexivity | left].
    have bj : py_index (size A) j = Err IndexError.
      move: bad; case: (j) => k /=.
        case: ltnP => // lt; rewrite ltz_nat lt andbT => /negP[].
        by apply: (@le_trans _ _ 0); rewrite ?oppr_le0.
      by case: ltnP => // lt; rewrite NegzE ler_opp2 lez_nat lt.
    elim: l jl => [//|i l ih]; rewrite inE /= => /orP[/eqP <-|/ih ->]; first by rewrite bj.
    by have [->|[k ->]] := idx i.
  by rewrite /PlotModel.plot_contours; case: l jl E => [//|i l] _ E; rewrite /pick_rows E.
move=> a A' v [vs1 vs2] -> E v1 sr; rewrite /PlotModel.plot_contours /pick_rows; cbn [rbind].
rewrite E; cbn [rbind].
have -> : [seq Posz i | i <- iota 0 (size (a :: A'))] = 0 :: [seq Posz i | i <- iota 1 (size A')] by [].
rewrite [size (0 :: _)]/= [iota 0 _]/= [zip _ _]/= /rmapM -/rmapM.
have -> : ((0%N, 0).1 < size (flatten ((v :: (vs1, vs2).1) :: (vs1, vs2).2)))%N by [].
cbn [rbind]; rewrite /contour_line /get.
by case: (ref) sr v1 => [|r0 [|]] //= _ v1; rewrite (ltn_trans (ltnSn 0) v1) //.
Qed.
End Contours.

(** ** plotChain *)
Section Chain.
Variable R : realFieldType.
Implicit Types chain : seq (seq R).

(** C100: plotChain of k >= 1 points draws k segments; number 0 is the first point alone,
    number i > 0 joins point i - 1 to point i (in the first two coordinates). *)
Theorem C100_chain chain : chain <> [::] -> exists ls,
  [/\ plotChain chain = Ok ls, size ls = size chain &
      forall i, (i < size chain)%N ->
        let p := nth [::] chain i.-1 in let q := nth [::] chain i in
        nth ([::], [::]) ls i = ([:: nth 0 p 0; nth 0 q 0], [:: nth 0 p 1; nth 0 q 1])].
Proof.
case: chain => [//|p0 chain] _; exists (chain_lines p0 (p0 :: chain)); split=> //.
  by rewrite /=; congr S; elim: chain (p0) => //= p chain ih p1; rewrite ih.
have L c cur i : (i < size c)%N -> let p := nth [::] (cur :: c) i in let q := nth [::] c i in
    nth ([::], [::]) (chain_lines cur c) i = ([:: nth 0 p 0; nth 0 q 0], [:: nth 0 p 1; nth 0 q 1]).
  by elim: c cur i => [//|q c ih] cur [|i] //= hi; rewrite ih.
move=> i hi; cbv zeta; have := L R (p0 :: chain) p0 i hi; cbv zeta => ->.
by case: i hi.
Qed.

(** C100: consecutive segments share an end: the drawing is connected, from the first point of
    the chain to the last. *)
Theorem C100_connected chain ls i : plotChain chain = Ok ls -> (i.+1 < size ls)%N ->
  let a := nth ([::], [::]) ls i in let b := nth ([::], [::]) ls i.+1 in
  nth 0 a.1 1 = nth 0 b.1 0 /\ nth 0 a.2 1 = nth 0 b.2 0.
Proof.
case: chain => [//|p chain]; have [//|l [-> sz E]] := @C100_chain (p :: chain).
by case=> <-; rewrite sz => hi; rewrite !E // ltnW.
Qed.

(** C100: no points: IndexError. *)
Theorem C100_empty : plotChain (R := R) [::] = Err IndexError. Proof. by []. Qed.
End Chain.
