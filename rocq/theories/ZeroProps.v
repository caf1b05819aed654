(** Property C153: samples of weight zero. *)
Set Warnings "-notation-overridden,-ambiguous-paths".
From mathcomp Require Import all_ssreflect all_algebra.
From Verif Require Import Py Nd Xnum XnumProofs UtilModel DensityModel NdProofs DensityProps DensityProps2.
Set Implicit Arguments. Unset Strict Implicit. Unset Printing Implicit Defensive.
Import Order.Theory GRing.Theory Num.Theory.
Local Open Scope ring_scope.

Section Zero.
Variable R : rcfType.
Notation xnum := (xnum R).
Notation nd := (nd R).
Variables (D KW BW : Type) (pdf : D -> KW -> nd -> res (pdfval xnum)) (nokw : KW) (nobw : BW)
  (uniform : seq R -> seq R -> D) (norm01 : D) (kde : nd -> BW -> seq xnum -> res D)
  (kde_pdf : D -> nd -> res (seq xnum)) (trunc : R -> R).
Notation dprob := (dprob R D).
Notation dop := (dop R D KW BW).
Notation mud_point := (mud_point pdf nokw nobw uniform norm01 kde kde_pdf).
Notation expected_ratio := (expected_ratio pdf nokw nobw uniform norm01 kde kde_pdf).
Notation init := (density_init D trunc).
Notation run draw := (run pdf nokw nobw uniform norm01 kde kde_pdf trunc draw).
Notation all_return draw := (all_return pdf nokw nobw uniform norm01 kde kde_pdf trunc draw).
Notation nthx := (nth (NaN : xnum)).

Variables (X y : nd) (xint : bool) (dom : option nd) (domint : bool) (w : option nd)
  (normalize : bool) (pad : R) (draw : nat -> dprob -> res unit) (s0 : dprob) (h : seq dop).
Hypothesis fresh_object : init X y xint dom domint w normalize pad = Ok s0.
Hypothesis plots : all (@no_plot R D KW BW) h.
Hypothesis returned : all_return draw s0 h.
Notation t := (t_step nokw nobw uniform norm01 s0 (track nokw nobw uniform norm01 s0 h) (OMud R D KW BW)).

(** Every value is a number, and no predicted value is zero. *)
Definition all_numbers (n : nat) (iv w ob pr : seq xnum) : Prop :=
  forall i, (i < n)%N -> exists a b c d, [/\ nthx iv i = Fin a, nthx w i = Fin b, nthx ob i = Fin c, nthx pr i = Fin d & d != 0].

(** C153: with numbers everywhere, a sample of weight zero is not the estimate as soon as some
    sample has a positive updated density. *)
Theorem C153_ignored s' x : mud_point (run draw s0 h) = (s', Ok x) ->
  exists di a dob iv ob pr,
  [/\ [/\ t_in t = Some di, t_pr t = Some a & t_used t = Some dob],
      [/\ density_at pdf nokw di (dX s0) iv, predicted_at pdf kde kde_pdf (dy s0) (t_w t) a pr
        & density_at pdf nokw dob (dy s0) ob]
    & forall n i, size iv = n -> size (t_w t) = n -> size ob = n -> size pr = n ->
      all_numbers n iv (t_w t) ob pr -> (i < n)%N ->
      xlt (Fin 0) (xmul (xmul (nthx iv i) (nthx (t_w t) i)) (xdiv (nthx ob i) (nthx pr i))) ->
      exists m, [/\ (m < n)%N, x = nth [::] (rows (dX s0)) m & nthx (t_w t) m <> Fin 0]].
Proof.
move=> hm; have [di [a [dob [iv [ob [pr [h1 h2 h3]]]]]]] := C36_estimate_is_maximal fresh_object plots returned hm.
exists di, a, dob, iv, ob, pr; split=> // n i e1 e2 e3 e4 nums hi pos.
have [|m [lm ex hmax _]] := h3 n e1 e2 e3 e4.
  move=> j hj; have [a1 [b [c [d [h4 h5 h6 h7 d0]]]]] := nums j hj.
  by rewrite /up_at h4 h5 h6 h7 /= (negbTE d0).
exists m; split=> // wm; have [a1 [b [c [d [h4 h5 h6 h7 d0]]]]] := nums m lm.
have := hmax i hi; rewrite {2}/up_at wm h4 h6 h7 /= (negbTE d0) mulr0 mul0r.
move: pos; rewrite -/(up_at iv (t_w t) ob pr i); case: (up_at _ _ _ _ _) => [z| | |] //= p q.
by move: (lt_le_trans p q); rewrite ltxx.
Qed.

(** C153: but where the predicted density vanishes (as a kernel estimate far from all weighted
    samples may) and the observed one does not, the updated density of a sample of weight zero is
    undefined, and an undefined sample is the estimate: this one or an earlier one. *)
Theorem C153_far_sample_wins s' x : mud_point (run draw s0 h) = (s', Ok x) ->
  exists di a dob iv ob pr,
  [/\ [/\ t_in t = Some di, t_pr t = Some a & t_used t = Some dob],
      [/\ density_at pdf nokw di (dX s0) iv, predicted_at pdf kde kde_pdf (dy s0) (t_w t) a pr
        & density_at pdf nokw dob (dy s0) ob]
    & forall n i a b, size iv = n -> size (t_w t) = n -> size ob = n -> size pr = n ->
      (i < n)%N -> nthx iv i = Fin a -> nthx (t_w t) i = Fin 0 -> nthx ob i = Fin b -> nthx pr i = Fin 0 ->
      exists m, [/\ (m <= i)%N, x = nth [::] (rows (dX s0)) m,
        isnan (xmul (xmul (nthx iv m) (nthx (t_w t) m)) (xdiv (nthx ob m) (nthx pr m)))
      & forall j, (j < m)%N -> ~~ isnan (xmul (xmul (nthx iv j) (nthx (t_w t) j)) (xdiv (nthx ob j) (nthx pr j)))]].
Proof.
move=> hm; have [di [a [dob [iv [ob [pr [u [m [h1 h2 h3 h4 [h5 h6]]]]]]]]]] :=
  C37_estimate_exact fresh_object plots returned hm.
exists di, a, dob, iv, ob, pr; split=> // n i a1 b e1 e2 e3 e4 hi i0 w0 o0 p0.
have [su hu] := updatedE h3 e1 e2 e3 e4.
have ni : isnan (nthx u i).
  rewrite hu // /up_at i0 w0 o0 p0 /= eqxx mulr0 /xinf.
  by case: ifP => _ /=; rewrite ?/xinf ?oppr0 ?ltxx //; case: ifP => _ //=; rewrite /xinf oppr0 ltxx.
have nnan : has (@isnan R) u by apply/(has_nthP NaN); exists i; rewrite ?su.
rewrite nnan in h4; case: h4; rewrite su => lm nm lt.
exists m; split=> //; last 2 first.
- by move: nm; rewrite hu.
- by move=> j jm; have := lt j jm; rewrite hu // (ltn_trans jm).
- by rewrite leqNgt; apply/negP => im; have := lt _ im; rewrite ni.
Qed.

(** C153: the expected ratio is the mean over the samples of weight not zero when the ratios of the
    others are numbers; a ratio that is no number there makes it no number. *)
Theorem C153_ratio s' v ws : expected_ratio (run draw s0 h) = (s', Ok v) -> t_w t = [seq Fin x | x <- ws] ->
  exists a dob ob pr r,
  [/\ t_pr t = Some a /\ t_used t = Some dob,
      predicted_at pdf kde kde_pdf (dy s0) (t_w t) a pr /\ density_at pdf nokw dob (dy s0) ob,
      xvbop (@xdiv R) ob pr = Ok r,
      (forall rs, r = [seq Fin x | x <- rs] ->
         let kept := filter (fun p => p.2 != 0) (zip rs ws) in
         v = Fin ((\sum_(p <- kept) p.1 * p.2) / (\sum_(p <- kept) p.2))) &
      forall i, (i < size ws)%N -> nth 0 ws i = 0 -> ~~ isfin (nthx r i) -> v = NaN].
Proof.
move=> /(C37_expected_ratio_exact fresh_object plots returned) [a [dob [ob [pr [r [h1 h2 h3 h4]]]]]].
move=> ew; exists a, dob, ob, pr, r; split=> //.
  move=> rs er kept; move: h4; rewrite ew er /np_average !size_map; case: eqP => //= es.
  have -> : xsum [seq Fin x | x <- ws] = Fin (\sum_(x <- ws) x).
    by rewrite /xsum; elim: (ws) => [|x l ih] /=; rewrite ?big_nil // ih big_cons.
  have -> : xsum [seq xmul p.1 p.2 | p <- zip [seq Fin x | x <- rs] [seq Fin x | x <- ws]]
     = Fin (\sum_(p <- zip rs ws) p.1 * p.2).
    rewrite /xsum; elim: (rs) (ws) => [|x l ih] [|z l'] /=; rewrite ?big_nil //.
    by rewrite ih big_cons.
  have k1 : \sum_(p <- zip rs ws) p.1 * p.2 = \sum_(p <- kept) p.1 * p.2.
    rewrite big_filter [LHS](bigID (fun p => p.2 != 0)) /= [X in _ + X]big1 ?addr0 // => p.
    by rewrite negbK => /eqP ->; rewrite mulr0.
  have k2 : \sum_(x <- ws) x = \sum_(p <- kept) p.2.
    rewrite big_filter -[LHS]/(\sum_(x <- ws) x).
    have -> : \sum_(x <- ws) x = \sum_(p <- zip rs ws) p.2.
      by rewrite -(big_map snd predT id) -/(unzip2 _) unzip2_zip // es.
    rewrite [LHS](bigID (fun p => p.2 != 0)) /= [X in _ + X]big1 ?addr0 // => p.
    by rewrite negbK => /eqP.
  by case: ifP => // nz [<-]; rewrite /= nz k1 k2.
move=> i hi wi ri; move: h4; rewrite ew /np_average size_map; case: eqP => //= es.
have -> : xsum [seq Fin x | x <- ws] = Fin (\sum_(x <- ws) x).
  by rewrite /xsum; elim: (ws) => [|x l ih] /=; rewrite ?big_nil // ih big_cons.
have nn (l : seq xnum) : has (@isnan R) l -> xsum l = NaN.
  by elim: l => [//|x l ih] /= /orP[|/ih ->]; case: x => //.
rewrite nn; first by case: ifP => // _ [<-].
apply/(has_nthP NaN); exists i; first by rewrite size_map size_zip es size_map minnn.
rewrite (nth_map (NaN, NaN)) ?size_zip ?es ?size_map ?minnn //.
rewrite nth_zip ?size_map //= (nth_map 0) // wi.
by case: (nthx r i) ri => [z| | |] //=; rewrite /xinf ?oppr0 ltxx.
Qed.
End Zero.
