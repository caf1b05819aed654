(** Properties of preprocessing.pca and preprocessing.svd (C67, C101). *)
Set Warnings "-notation-overridden,-ambiguous-paths".
From mathcomp Require Import all_ssreflect all_algebra.
From mathcomp.algebra_tactics Require Import ring.
From Verif Require Import Py Nd PrepModel.
Set Implicit Arguments. Unset Strict Implicit. Unset Printing Implicit Defensive.
Import Order.Theory GRing.Theory Num.Theory.
Local Open Scope ring_scope.

Section Prep.
Variable R : rcfType.
Notation nd := (nd R).

(** C67: data that is not two-dimensional is rejected with ValueError whatever the
    decomposition would do; two-dimensional data with a row and a column is not rejected before
    the decomposition is called. *)
Theorem C67_rejects_iff (a : nd) (k : int) :
  ((forall P (fit : nd -> int -> res P), pca fit a k = Err ValueError) <->
   (ndim a <> 2%N \/ dim a 0 = 0%N \/ dim a 1 = 0%N)) /\
  ((forall S (fit : nd -> res S), svd fit a = Err ValueError) <->
   (ndim a <> 2%N \/ dim a 0 = 0%N \/ dim a 1 = 0%N)).
Proof.
split; rewrite /pca /svd /standardise; (split; first last).
- by move=> H P fit; case: eqP => //= e; case: H => [//|[->|->]] //; rewrite orbT.
- move/(_ unit (fun _ _ => Ok tt)); case: eqP => [e|]; last by left.
  by case: eqP => [e0|_]; [right; left | case: eqP => [e1|_] // _; right; right].
- by move=> H P fit; case: eqP => //= e; case: H => [//|[->|->]] //; rewrite orbT.
- move/(_ unit (fun _ => Ok tt)); case: eqP => [e|]; last by left.
  by case: eqP => [e0|_]; [right; left | case: eqP => [e1|_] // _; right; right].
Qed.

(** ** The data handed to the decomposition *)
Lemma flat_lt n p i j : (i < n)%N -> (j < p)%N -> (i * p + j < n * p)%N.
Proof. by move=> hi hj; apply: leq_trans (leq_mul hi (leqnn p)); rewrite mulSn addnC ltn_add2r. Qed.

Lemma standardiseE (a X : nd) : standardise a = Ok X ->
  [/\ (0 < dim a 0)%N, (0 < dim a 1)%N, Nd.shape X = [:: dim a 0; dim a 1], nd_wf X &
      forall i j, (i < dim a 0)%N -> (j < dim a 1)%N ->
        entry X i j = (entry a i j - col_mean a j) / col_scale a j].
Proof.
rewrite /standardise; case: (posnP (dim a 0)) => //= n0; case: (posnP (dim a 1)) => //= p0 [<-]; split=> //.
  by rewrite /nd_wf /= size_map size_iota /prodn /= muln1.
move=> i j hi hj; rewrite /entry /dim /= -/(dim a 0) -/(dim a 1).
rewrite (nth_map 0%N) ?size_iota ?flat_lt // nth_iota ?flat_lt // add0n.
by rewrite modnMDl modn_small.
Qed.

(** C67: pca and svd hand the decomposition an array X of the same shape whose columns have
    mean zero and, unless the column was constant, mean square one. *)
Theorem C67_standardised P S (fit : nd -> int -> res P) (dec : nd -> res S) (a : nd) (k : int) :
  ndim a = 2%N -> (0 < dim a 0)%N -> (0 < dim a 1)%N ->
  exists X, [/\ pca fit a k = fit X k, svd dec a = dec X, Nd.shape X = Nd.shape a &
    forall j, (j < dim a 1)%N ->
      \sum_(i <- iota 0 (dim a 0)) entry X i j = 0 /\
      (\sum_(i <- iota 0 (dim a 0)) entry X i j ^+ 2) / (dim a 0)%:R =
      (if all (fun i => entry a i j == entry a 0 j) (iota 0 (dim a 0)) then 0 else 1)].
Proof.
move=> d2 n0 p0.
case eX: (standardise a) => [X|e]; last by move: eX; rewrite /standardise !eqn0Ngt n0 p0.
have [_ _ sX _ EX] := standardiseE eX.
exists X; rewrite /pca /svd d2 eqxx eX; split=> //.
  by rewrite sX /dim; move: d2; rewrite /ndim; case: (Nd.shape a) => [|x [|y []]].
move=> j hj; set n := dim a 0 in n0 EX *; set m := col_mean a j.
have nR : n%:R != 0 :> R by rewrite pnatr_eq0 -lt0n.
have E (F : R -> R) : \sum_(i <- iota 0 n) F (entry X i j) =
    \sum_(i <- iota 0 n) F ((entry a i j - m) / col_scale a j).
  by rewrite big_seq [RHS]big_seq; apply: eq_bigr => i; rewrite mem_iota add0n => /andP[_ hi]; rewrite EX.
split.
  rewrite (E id) -mulr_suml sumrB big_const_seq count_predT size_iota iter_addr_0.
  by rewrite -mulr_natr /m /col_mean divfK // subrr mul0r.
rewrite (E (fun x => x ^+ 2)).
under eq_bigr do rewrite expr_div_n.
rewrite -mulr_suml mulrAC -/(col_var a j) /col_scale.
have var0 : (col_var a j == 0) = all (fun i => entry a i j == entry a 0 j) (iota 0 n).
  rewrite mulf_eq0 invr_eq0 (negbTE nR) orbF psumr_eq0; last by move=> i _; apply: sqr_ge0.
  apply/allP/allP => H i hi; last first.
    apply/implyP => _; rewrite sqrf_eq0 subr_eq0 -/m (eqP (H i hi)) /m /col_mean -/n.
    under eq_big_seq => i' hi' do rewrite (eqP (H i' hi')).
    by rewrite big_const_seq count_predT size_iota iter_addr_0 -[_ *+ n]mulr_natr mulfK.
  have h i' : i' \in iota 0 n -> entry a i' j = m.
    by move=> hi'; have := H i' hi'; rewrite sqrf_eq0 subr_eq0 => /eqP.
  by rewrite h // h // mem_iota.
rewrite -var0; case: eqP => [->|/eqP nz]; first by rewrite mul0r.
rewrite sqr_sqrtr ?mulfV // mulr_ge0 ?invr_ge0 ?ler0n //.
by apply: sumr_ge0 => i _; apply: sqr_ge0.
Qed.

(** C101: the outcome of pca and svd does not change when every column is shifted by a constant
    and multiplied by a positive constant of its own (a change of units). *)
Theorem C101_change_of_units P S (fit : nd -> int -> res P) (dec : nd -> res S) (a b : nd) (k : int)
    (s t : nat -> R) :
  Nd.shape b = Nd.shape a -> nd_wf a -> nd_wf b ->
  (forall j, (j < dim a 1)%N -> 0 < s j) ->
  (forall i j, (i < dim a 0)%N -> (j < dim a 1)%N -> entry b i j = s j * entry a i j + t j) ->
  pca fit b k = pca fit a k /\ svd dec b = svd dec a.
Proof.
move=> sh wa wb s0 E.
have nd2 : ndim b = ndim a by rewrite /ndim sh.
have n_ : dim b 0 = dim a 0 by rewrite /dim sh.
have p_ : dim b 1 = dim a 1 by rewrite /dim sh.
rewrite /pca /svd nd2; case: eqP => // n2 /=.
suff -> : standardise b = standardise a by [].
rewrite /standardise n_ p_; case: (posnP (dim a 0)) => //= n0; case: (posnP (dim a 1)) => //= p0.
congr (Ok (Nd _ _)); apply/eq_in_map => q; rewrite mem_iota add0n => /andP[_ hq].
have hj : (q %% dim a 1 < dim a 1)%N by rewrite ltn_mod.
have hi : (q %/ dim a 1 < dim a 0)%N by rewrite ltn_divLR.
have -> : nth 0 (data b) q = entry b (q %/ dim a 1) (q %% dim a 1) by rewrite /entry p_ -divn_eq.
have -> : nth 0 (data a) q = entry a (q %/ dim a 1) (q %% dim a 1) by rewrite /entry -divn_eq.
move: (q %% dim a 1)%N (q %/ dim a 1)%N hj hi => j i hj hi.
have nR : (dim a 0)%:R != 0 :> R by rewrite pnatr_eq0 -lt0n.
have M : col_mean b j = s j * col_mean a j + t j.
  rewrite /col_mean n_; under eq_big_seq => i'.
    rewrite mem_iota add0n => /andP[_ h]; rewrite E //; over.
  rewrite big_split /= big_const_seq count_predT size_iota iter_addr_0 -mulr_sumr mulrDl -mulrA.
  by rewrite -[t j *+ _]mulr_natr mulfK.
have V : col_var b j = s j ^+ 2 * col_var a j.
  rewrite /col_var n_ mulrA mulr_sumr; congr (_ / _).
  rewrite big_seq [RHS]big_seq; apply: eq_bigr => i'; rewrite mem_iota add0n => /andP[_ h].
  by rewrite E // M; ring.
have sj := s0 j hj.
rewrite /col_scale M V mulf_eq0 sqrf_eq0 (gt_eqF sj) orFb; case: eqP => [v0|_].
  move/eqP: v0; rewrite mulf_eq0 invr_eq0 (negbTE nR) orbF psumr_eq0; last by move=> i' _; apply: sqr_ge0.
  move/allP/(_ i); rewrite mem_iota add0n hi => /(_ isT); rewrite sqrf_eq0 subr_eq0 => /eqP e.
  by rewrite E // e !subrr.
rewrite E // sqrtrM ?sqr_ge0 // sqrtr_sqr gtr0_norm // opprD addrACA subrr addr0 -mulrBr -mulf_div.
by rewrite mulfV ?mul1r ?gt_eqF.
Qed.

End Prep.
