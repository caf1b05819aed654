(** Properties of util.null_space and util.rank_decomposition (C53, C54). *)
Set Warnings "-notation-overridden,-ambiguous-paths".
From mathcomp Require Import all_ssreflect all_algebra.
From mathcomp.algebra_tactics Require Import ring.
From Verif Require Import Py Spec Nd Xnum UtilModel DensityModel NdProofs UtilModel2.
Set Implicit Arguments. Unset Strict Implicit. Unset Printing Implicit Defensive.
Import Order.Theory GRing.Theory Num.Theory.
Local Open Scope ring_scope.

Section Svd.
Variable R : realFieldType.

(** The m x n matrix with the numbers [s] on its diagonal. *)
Definition diag_of m n (s : seq R) : 'M[R]_(m, n) :=
  \matrix_(i, j) (if (i == j :> nat) then nth 0 s i else 0).

(** [d] is a full singular value decomposition of [A]: A = u diag(s) vh, u and vh orthogonal,
    s nonnegative in descending order. *)
Definition is_svd m n (A : 'M[R]_(m, n)) (d : svd_out R m n) : Prop :=
  [/\ A = sv_u d *m diag_of m n (sv_s d) *m sv_vh d,
      (sv_u d)^T *m sv_u d = 1%:M, sv_vh d *m (sv_vh d)^T = 1%:M,
      size (sv_s d) = minn m n & sorted >=%O (sv_s d) /\ all (fun x => 0 <= x) (sv_s d)].

(** The tolerance: [rcond] (or its default) times the largest singular value. *)
Definition tol_of (eps : R) m n (d : svd_out R m n) (rcond : option R) : R :=
  head 0 (sv_s d) * odflt (eps * (maxn m n)%:R) rcond.

Section Fixed.
Variables (eps : R) (m n : nat) (A : 'M[R]_(m, n)) (d : svd_out R m n) (rcond : option R).
Hypothesis svd : is_svd A d.
Notation s := (sv_s d).
Notation tol := (tol_of eps d rcond).
Notation num := (count (fun x => tol < x) s).

Lemma sv_ge0 k : 0 <= nth 0 s k.
Proof.
case: svd => _ _ _ _ [_ /(all_nthP 0) h]; case: (ltnP k (size s)) => hk; first exact: h.
by rewrite nth_default.
Qed.

Lemma np_max_head : (0 < size s)%N -> np_max s = head 0 s.
Proof.
case: svd => _ _ _ _ [so _] s0; apply: np_max_uniq.
  by case: (s) s0 => //= x l _; rewrite inE eqxx.
case: (s) so => [//|x l] /= so y; rewrite inE => /orP [/eqP -> //|yl].
have := order_path_min (rev_trans le_trans) so.
by move/allP/(_ y yl).
Qed.

(** The number of columns is n minus the number of singular values above the tolerance;
    the only failure is a matrix without singular values. *)
Lemma null_spaceE : (0 < minn m n)%N ->
  null_space eps d rcond = Ok (existT (fun k => 'M[R]_(n, k)) (n - num)%N (rows_from (sv_vh d) num)^T).
Proof.
move=> mn0; have s0 : (0 < size s)%N by case: svd => _ _ _ -> _.
rewrite /null_space eqn0Ngt s0 /=.
by have -> : ns_num s (odflt (eps * (maxn m n)%:R) rcond) = num by rewrite /ns_num /ns_tol np_max_head.
Qed.

Theorem C53_fails_iff : is_ok (null_space eps d rcond) = (0 < minn m n)%N.
Proof.
case: (posnP (minn m n)) => [e|h]; last by rewrite null_spaceE.
by rewrite /null_space; case: svd => _ _ _ -> _; rewrite e.
Qed.

Lemma num_le : (num <= n)%N.
Proof. by apply: leq_trans (count_size _ _) _; case: svd => _ _ _ -> _; apply: geq_minr. Qed.

(** Descending order: exactly the first [num] singular values exceed the tolerance. *)
Lemma above_iff k : (k < size s)%N -> (tol < nth 0 s k) = (k < num)%N.
Proof.
case: svd => _ _ _ _ [so _]; move: (tol) => t; move: (s) so k.
elim=> [//|x l ih] /= so k hk.
have mn := order_path_min (rev_trans le_trans) so.
case: (ltP t x) => tx.
  by case: k hk => [|k] /= hk; rewrite ?tx ?add1n // ih // (path_sorted so).
have c0 : count (fun y => t < y) l = 0%N.
  apply/eqP; rewrite -leqn0 leqNgt -has_count; apply/hasPn => y yl.
  by rewrite -leNgt (le_trans _ tx) //; have /allP/(_ y yl) := mn.
rewrite add0n c0; apply/negbTE; rewrite -leNgt.
case: k hk => [//|k] hk; apply: le_trans tx.
by have /allP/(_ _ (mem_nth 0 (n := k) _)) := mn; apply.
Qed.

Notation Z := ((rows_from (sv_vh d) num)^T : 'M[R]_(n, n - num)).

Definition kix (j : 'I_(n - num)) : 'I_n.
Proof. by exists (num + j)%N; have := ltn_ord j; rewrite ltn_subRL. Defined.

Lemma colZ j : col j Z = (row (kix j) (sv_vh d))^T.
Proof.
apply/matrixP => a b; rewrite !mxE insubT /=; first by have := ltn_ord j; rewrite ltn_subRL.
by move=> h; congr (sv_vh d _ _); apply/val_inj.
Qed.

Lemma orthonormal : Z^T *m Z = 1%:M.
Proof.
apply/matrixP => a b; rewrite mxE.
have E j k : Z k j = sv_vh d (kix j) k.
  by have /matrixP/(_ k 0) := colZ j; rewrite !mxE.
under eq_bigr do rewrite [Z^T _ _]mxE !E.
case: svd => _ _ /matrixP/(_ (kix a) (kix b)) + _ _; rewrite !mxE.
under eq_bigr do rewrite [(sv_vh d)^T _ _]mxE; move=> ->.
by rewrite -[kix a == kix b]/(num + a == num + b)%N eqn_add2l.
Qed.

Lemma vh_row (k : 'I_n) : sv_vh d *m (row k (sv_vh d))^T = delta_mx k 0.
Proof.
by case: svd => _ _ e _ _; rewrite tr_row colE mulmxA e mul1mx.
Qed.

Lemma sqnormE p (u : 'cV[R]_p) : sqnorm u = (u^T *m u) 0 0.
Proof. by rewrite mxE; apply: eq_bigr => i _; rewrite mxE. Qed.

Lemma residual (k : 'I_n) : sqnorm (A *m (row k (sv_vh d))^T) = nth 0 s k ^+ 2.
Proof.
case: (svd) => {1}-> uu _ sz _; rewrite -mulmxA vh_row -mulmxA sqnormE trmx_mul mulmxA.
rewrite -(mulmxA _ _ (sv_u d)) uu mulmx1 -sqnormE /sqnorm /dotv.
have E i : (diag_of m n s *m delta_mx k 0) i 0 = if (i == k :> nat) then nth 0 s k else 0.
  rewrite mxE (bigD1 k) //= big1 => [|j /negbTE jk]; last by rewrite [delta_mx _ _ _ _]mxE jk mulr0.
  by rewrite addr0 !mxE !eqxx mulr1; case: eqP => // ->.
under eq_bigr do rewrite E.
case: (ltnP k m) => km.
  rewrite (bigD1 (Ordinal km)) //= eqxx big1 ?addr0 // => i ik.
  by case: eqP => [e|]; rewrite ?mulr0 //; case/eqP: ik; apply: val_inj.
rewrite nth_default ?expr0n ?mulr0 ?big1 //.
  by move=> i _; case: eqP; rewrite mul0r.
by rewrite sz (leq_trans (geq_minl _ _)).
Qed.

(** C53: the columns are orthonormal, each is mapped to a vector of norm s_k <= tol for a
    singular value s_k not above the tolerance, and every vector of the kernel is a
    combination of the columns. *)
Theorem C53_null_space : (0 < minn m n)%N -> 0 <= odflt (eps * (maxn m n)%:R) rcond ->
  exists k (Q : 'M[R]_(n, k)),
    [/\ null_space eps d rcond = Ok (existT _ k Q),
        k = (n - count (fun x => (tol < x)%R) s)%N,
        Q^T *m Q = 1%:M,
        (forall j, exists2 sk, (0 <= sk) && (sk <= tol) & sqnorm (A *m col j Q) = sk ^+ 2) &
        (forall v : 'cV[R]_n, A *m v = 0 -> exists c : 'cV[R]_k, v = Q *m c)].
Proof.
move=> mn0 rc0; exists (n - num)%N, Z; split; [exact: null_spaceE|by []|exact: orthonormal| |].
- have t0 : 0 <= tol by rewrite mulr_ge0 // -nth0 sv_ge0.
  move=> j; exists (nth 0 s (kix j)); last by rewrite colZ residual.
  rewrite sv_ge0 /=; case: (ltnP (kix j) (size s)) => h; last by rewrite nth_default.
  by rewrite leNgt above_iff // -leqNgt /= leq_addr.
- move=> v Av; exists (Z^T *m v).
  have t0 : 0 <= tol by rewrite mulr_ge0 // -nth0 sv_ge0.
  case: (svd) => eA uu vv sz _.
  have vt : (sv_vh d)^T *m sv_vh d = 1%:M by apply: mulmx1C.
  pose w := sv_vh d *m v.
  have w0 (i : 'I_n) : (i < num)%N -> w i 0 = 0.
    move=> hi; have hs : (i < size s)%N by apply: leq_trans hi (count_size _ _).
    have si : nth 0 s i != 0 by rewrite gt_eqF // (le_lt_trans t0) // above_iff.
    have im : (i < m)%N by move: hs; rewrite sz leq_min => /andP [].
    have : (sv_u d)^T *m (A *m v) = 0 by rewrite Av mulmx0.
    rewrite eA -!mulmxA mulmxA uu mul1mx => /matrixP /(_ (Ordinal im) 0).
    rewrite -/w [RHS]mxE [LHS]mxE (bigD1 i) //= big1 => [|j ji].
      by rewrite mxE /= eqxx addr0 => /eqP; rewrite mulf_eq0 (negbTE si) => /eqP.
    rewrite mxE /=; case: eqP => [e|]; last by rewrite mul0r.
    by case/eqP: ji; apply: val_inj.
  have E j k : Z k j = sv_vh d (kix j) k by have /matrixP/(_ k 0) := colZ j; rewrite !mxE.
  have vQ j : (Z^T *m v) j 0 = w (kix j) 0.
    by rewrite !mxE; apply: eq_bigr => l _; rewrite [Z^T _ _]mxE E.
  apply: (can_inj (mulKmx (mulmx1_unit vt).2)).
  apply/matrixP => i b; rewrite ord1 {b} -/w (mulmxA (sv_vh d) Z) [RHS]mxE.
  have D j : (sv_vh d *m Z) i j = (i == kix j)%:R.
    have /matrixP/(_ i 0) := vh_row (kix j); rewrite -colZ !mxE andbT => <-.
    by apply: eq_bigr => l _; rewrite [col _ _ _ _]mxE.
  under eq_bigr do rewrite D vQ.
  case: (ltnP i num) => hi.
    rewrite w0 // big1 // => j _; case: eqP => [e|]; last by rewrite mul0r.
    by move: hi; rewrite e /= ltnNge leq_addr.
  have hj : (i - num < n - num)%N by rewrite ltn_sub2r // (leq_ltn_trans hi).
  have ki : i = kix (Ordinal hj) by apply: val_inj; rewrite /= subnKC.
  rewrite (bigD1 (Ordinal hj)) //= -ki eqxx mul1r big1 ?addr0 // => j jk.
  case: eqP => [e|]; last by rewrite mul0r.
  case/eqP: jk; apply: val_inj => /=; move: e => /(congr1 val) /= ->; by rewrite addKn.
Qed.

(** C53: A Q = 0 exactly when no positive singular value is at or below the tolerance; then
    the columns are an orthonormal basis of the kernel. *)
Theorem C53_exact_iff : (0 < minn m n)%N -> 0 <= odflt (eps * (maxn m n)%:R) rcond ->
  exists k (Q : 'M[R]_(n, k)), null_space eps d rcond = Ok (existT _ k Q) /\
    (A *m Q == 0) = all (fun x => (x == 0) || (tol < x)) s.
Proof.
move=> mn0 rc0; exists (n - num)%N, Z; split; first exact: null_spaceE.
case: (svd) => _ _ _ sz _.
have E j : col j (A *m Z) = A *m (row (kix j) (sv_vh d))^T by rewrite -colZ !colE mulmxA.
apply/eqP/(all_nthP 0) => [h k hk|h].
- rewrite above_iff //; case: ltnP => hn; first by rewrite orbT.
  rewrite orbF; have kn : (k < n)%N by move: hk; rewrite sz leq_min => /andP [].
  have hj : (k - num < n - num)%N by rewrite ltn_sub2r // (leq_ltn_trans hn).
  have ki : k = kix (Ordinal hj) by rewrite /= subnKC.
  have := E (Ordinal hj); rewrite h => /(congr1 (@sqnorm R m)).
  rewrite residual -ki /sqnorm /dotv big1 => [/esym/eqP|i _]; last by rewrite !mxE mul0r.
  by rewrite sqrf_eq0.
- apply/matrixP => i j; have := residual (kix j); rewrite -E.
  have -> : nth 0 s (kix j) = 0.
    case: (ltnP (kix j) (size s)) => hk; last by rewrite nth_default.
    by have := h _ hk; rewrite above_iff //= ltnNge leq_addr orbF => /eqP.
  rewrite expr0n /= /sqnorm /dotv => /eqP; rewrite psumr_eq0 => [/allP/(_ i)|l _]; last by rewrite -expr2 sqr_ge0.
  by rewrite mem_index_enum => /(_ isT) /=; rewrite mulf_eq0 orbb !mxE => /eqP.
Qed.
End Fixed.

(** ** C54: rank_decomposition.  Its loop uses the columns of the third factor [vh] (whose rows
    are the right singular vectors), and never adds the first term to the later ones. *)
Section Rank.
Variables (m n : nat) (d : svd_out R m n).
Hypothesis sz : size (sv_s d) = minn m n.

(** s_i u_i (column i of vh)^T. *)
Definition term (h : (n <= m)%N) (i : 'I_n) : 'M[R]_(m, n) :=
  nth 0 (sv_s d) i *: (col (widen_ord h i) (sv_u d) *m (col i (sv_vh d))^T).
Definition tern h (i : nat) : 'M[R]_(m, n) := if insub i is Some i' then term h i' else 0.

Lemma rank1E h i : (i < n)%N -> rank1 d i = Ok (tern h i).
Proof.
move=> hi; rewrite /rank1 /get_nth sz leq_min hi (leq_trans hi h) /= /get_col.
rewrite (insubT (fun i => (i < m)%N) (leq_trans hi h)) /= (insubT (fun i => (i < n)%N) hi) /=.
rewrite /tern (insubT (fun i => (i < n)%N) hi) /= /term -scalemxAl; congr (Ok (_ *: (col _ _ *m _))).
exact: val_inj.
Qed.

Lemma rank1_err i : (minn m n <= i)%N -> rank1 d i = Err IndexError.
Proof. by move=> hi; rewrite /rank1 /get_nth sz ltnNge hi. Qed.

Lemma rank1_kind i : is_ok (rank1 d i) \/ rank1 d i = Err IndexError.
Proof.
rewrite /rank1 /get_nth /get_col; case: ifP => _ /=; last by right.
case: insubP => [? _ _|_] /=; last by right.
by case: insubP => [? _ _|_] /=; [left|right].
Qed.

Lemma rank_loopE h i todo : (0 < i)%N -> (i + todo <= n)%N ->
  rank_loop d i todo [seq tern h j | j <- iota 1 i.-1] =
  Ok [seq \sum_(1 <= j < k.+1) tern h j | k <- iota i todo].
Proof.
elim: todo i => [//|t ih] i i0 hi /=.
have hin : (i < n)%N by apply: leq_trans hi; rewrite addnS ltnS leq_addr.
rewrite (rank1E h) //=.
have -> : rcons [seq tern h j | j <- iota 1 i.-1] (tern h i) = [seq tern h j | j <- iota 1 i.+1.-1].
  case: i i0 {hi hin} => // i _; rewrite -map_rcons; congr map; rewrite -[i.+2.-1]addn1 iotaD cats1.
  by rewrite add1n.
rewrite ih ?addSnnS //=; congr (Ok (_ :: _)).
by rewrite take_oversize ?size_map ?size_iota // big_map /index_iota subn1.
Qed.

(** C54: for an m x n matrix with 0 < n <= m the call returns n matrices; the first is the
    first term, matrix number k >= 1 is the sum of the terms 1, ..., k (without term 0). *)
Theorem C54_terms (h : (n <= m)%N) : (0 < n)%N ->
  exists rs, [/\ rank_decomposition d = Ok rs, size rs = n,
    (forall i : 'I_n, val i = 0%N -> nth 0 rs 0 = term h i) &
    forall k, (0 < k < n)%N -> nth 0 rs k = \sum_(i < n | (0 < i <= k)%N) term h i].
Proof.
move=> n0; rewrite /rank_decomposition (rank1E h) //=.
rewrite (@rank_loopE h 1 (n - 1)) ?subnKC //=; eexists; split; first by [].
- by rewrite /= size_map size_iota subn1 prednK.
- by move=> i i0 /=; rewrite /tern -i0 valK.
- case=> [//|k] /= hk; rewrite (nth_map 0%N) ?size_iota ?ltn_subRL // nth_iota ?ltn_subRL // add1n.
  have -> : \sum_(1 <= j < k.+2) tern h j = \sum_(j < k.+2 | (0 < j)%N) tern h j.
    rewrite -(big_mkord (fun j => 0 < j)%N (tern h)) [RHS]big_ltn_cond //=.
    by rewrite big_nat_cond [RHS]big_nat_cond; apply: eq_bigl => j; case: j => //= j; rewrite andbT.
  rewrite (big_ord_widen_cond n (fun j => 0 < j)%N (tern h)) //.
  by apply: eq_big => [i|i _]; rewrite ?ltnS // /tern valK.
Qed.

(** It succeeds exactly for matrices with at least one column and no more columns than rows;
    a wide matrix raises IndexError. *)
Theorem C54_succeeds_iff : 
  is_ok (rank_decomposition d) = (0 < n <= m)%N /\
  (~~ (0 < n <= m)%N -> rank_decomposition d = Err IndexError).
Proof.
suff E : ~~ (0 < n <= m)%N -> rank_decomposition d = Err IndexError.
  split=> //; case c: (0 < n <= m)%N; last by rewrite E ?c.
  by case/andP: c => n0 h; have [rs [-> _ _ _]] := C54_terms h n0.
rewrite negb_and -eqn0Ngt -ltnNge => c; rewrite /rank_decomposition.
case: (posnP (minn m n)) => [e|mn0]; first by rewrite rank1_err ?e.
have mn : (m < n)%N by case/orP: c => // /eqP e; move: mn0; rewrite e minn0.
have L i todo ups : (i <= m)%N -> (m < i + todo)%N -> rank_loop d i todo ups = Err IndexError.
  elim: todo i ups => [|t ih] i ups hi ht; first by move: ht; rewrite addn0 ltnNge hi.
  rewrite /=; case: (ltnP i m) => im; last by rewrite rank1_err // (minn_idPl (ltnW mn)).
  case: (rank1 d i) (@rank1_kind i) => [x _|e [//|[->] //]] /=.
  by rewrite ih // addSnnS.
have m0 : (0 < m)%N by move: mn0; rewrite leq_min => /andP [].
case: (rank1 d 0) (@rank1_kind 0) => [x _|e [//|[->] //]] /=.
by rewrite L // subnKC // ?(leq_ltn_trans _ mn).
Qed.

(** The first and the last matrix add up to u diag(s) vh^T -- the matrix itself only if the
    rows of vh below the nonzero singular values equal its columns. *)
Theorem C54_first_plus_last (A : 'M[R]_(m, n)) (h : (n <= m)%N) : is_svd A d -> (1 < n)%N ->
  exists2 rs, rank_decomposition d = Ok rs &
    nth 0 rs 0 + nth 0 rs n.-1 = sv_u d *m diag_of m n (sv_s d) *m (sv_vh d)^T /\
    (nth 0 rs 0 + nth 0 rs n.-1 = A <->
     diag_of m n (sv_s d) *m (sv_vh d)^T = diag_of m n (sv_s d) *m sv_vh d).
Proof.
move=> svd n1; have n0 := ltnW n1; have [rs [-> sr r0 rk]] := C54_terms h n0; exists rs => //.
have E : nth 0 rs 0 + nth 0 rs n.-1 = sv_u d *m diag_of m n (sv_s d) *m (sv_vh d)^T.
  have -> : sv_u d *m diag_of m n (sv_s d) *m (sv_vh d)^T = \sum_i term h i.
    apply/matrixP => a b; rewrite summxE mxE; apply: eq_bigr => i _.
    rewrite !mxE big_ord1 !mxE (bigD1 (widen_ord h i)) //= big1 => [|j ji].
      by rewrite mxE /= eqxx addr0; ring.
    rewrite mxE; case: eqP => [e|]; last by rewrite mulr0.
    by case/eqP: ji; apply: val_inj.
  rewrite (bigD1 (Ordinal n0)) //= (r0 (Ordinal n0)) // rk; last first.
    by case: n n1 {svd n0 rs sr r0 rk} => [|[|?]] //= _; rewrite ltnS leqnn.
  congr (_ + _); apply: eq_bigl => i; rewrite -val_eqE /= -lt0n.
  by case: (0 < i)%N; rewrite //= -ltnS prednK // ltn_ord.
split=> //; rewrite E; case: (svd) => -> uu _ _ _.
rewrite -!mulmxA; split=> [e|-> //].
by apply: (can_inj (mulKmx (mulmx1_unit uu).2)).
Qed.

(** Matrix number k has rank at most k (the first: at most 1). *)
Theorem C54_rank_bound (h : (n <= m)%N) rs k : rank_decomposition d = Ok rs ->
  (k < n)%N -> (\rank (nth 0%R rs k) <= maxn 1 k)%N.
Proof.
move=> e hk; have n0 : (0 < n)%N by apply: leq_ltn_trans hk.
have [rs' [e' sr r0 rk]] := C54_terms h n0; move: e; rewrite e' => -[<-].
have T i : (\rank (term h i) <= 1)%N.
  rewrite /term (leq_trans (mxrank_scale _ _)) // (leq_trans (mxrankM_maxl _ _)) //.
  exact: rank_leq_col.
case: k hk => [_|k hk]; first by rewrite (r0 (Ordinal n0)).
rewrite rk // (maxn_idPr _) //.
apply: (@leq_trans (\sum_(i < n | (0 < i <= k.+1)%N) 1)).
  apply: (@leq_trans (\sum_(i < n | (0 < i <= k.+1)%N) \rank (term h i))); last exact: leq_sum.
  elim/big_rec2: _ => [|i x y _ ih]; first by rewrite mxrank0.
  by apply: leq_trans (mxrank_add _ _) _; rewrite leq_add2l.
rewrite -(big_mkord (fun i => 0 < i <= k.+1)%N (fun=> 1%N)) big_ltn_cond //= big_nat_cond.
rewrite (eq_bigl (fun i => (1 <= i < n)%N && (i <= k.+1)%N)); last first.
  by move=> i; case: (i) => //= j; rewrite andbC.
rewrite (eq_bigl (fun i => (1 <= i < n)%N && (i < k.+2)%N)) //.
rewrite -big_nat_cond -(big_nat_widen 1 k.+2 n xpredT (fun=> 1%N) hk).
by rewrite sum_nat_const_nat subn1 muln1.
Qed.
End Rank.
End Svd.
