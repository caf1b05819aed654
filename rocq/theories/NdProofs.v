(** Facts about [rows], [fit_domain] and [xvbop]. *)
Set Warnings "-notation-overridden,-ambiguous-paths".
From mathcomp Require Import all_ssreflect all_algebra.
From Verif Require Import Py Nd Xnum XnumProofs UtilModel DensityModel.
Set Implicit Arguments. Unset Strict Implicit. Unset Printing Implicit Defensive.
Import Order.Theory GRing.Theory Num.Theory.
Local Open Scope ring_scope.

Section Rows.
Variable V : Type.
Implicit Types (a : nd V) (s : seq V).

Lemma size_rows a : size (rows a) = dim a 0.
Proof.
rewrite /rows; elim: (dim a 0) (data a) => [|n ih] s //=.
by rewrite ih.
Qed.

Lemma nth_reshape_nseq n p s x0 i j : (i < n)%N -> (j < p)%N ->
  nth x0 (nth [::] (reshape (nseq n p) s) i) j = nth x0 s (i * p + j).
Proof.
elim: n s i => [//|n ih] s [|i] /= hi hj; first by rewrite nth_take.
by rewrite ih // nth_drop mulSn addnA.
Qed.

Lemma nth_rows a x0 i j : (i < dim a 0)%N -> (j < dim a 1)%N ->
  nth x0 (nth [::] (rows a) i) j = nth x0 (data a) (i * dim a 1 + j).
Proof. exact: nth_reshape_nseq. Qed.

Lemma size_row n p s i : size s = (n * p)%N -> (i < n)%N ->
  size (nth [::] (reshape (nseq n p) s) i) = p.
Proof.
elim: n s i => [//|n ih] s [|i] /= e hi; first by rewrite size_takel // e mulSn leq_addr.
by apply: ih => //; rewrite size_drop e mulSn addKn.
Qed.

Lemma rows_flatten p (rs : seq (seq V)) : all (fun r => size r == p) rs ->
  reshape (nseq (size rs) p) (flatten rs) = rs.
Proof.
by elim: rs => [//|r rs ih] /= /andP [/eqP e h]; rewrite (take_size_cat _ e) (drop_size_cat _ e) ih.
Qed.

Lemma rows_nd2 p (rs : seq (seq V)) : all (fun r => size r == p) rs -> rows (nd2 p rs) = rs.
Proof. exact: rows_flatten. Qed.

Lemma all_size_rows a : nd_wf a -> ndim a = 2%N -> all (fun r => size r == dim a 1) (rows a).
Proof.
rewrite /nd_wf /ndim /rows /dim; case: (shape a) => [|n [|p [|]]] //= /eqP; rewrite /prodn /= muln1.
move=> e _; apply/(all_nthP [::]) => i.
have -> : size (reshape (nseq n p) (data a)) = n.
  by rewrite -[RHS]/(dim (Nd [:: n; p] (data a)) 0) -size_rows.
by move=> hi; rewrite (size_row e).
Qed.
End Rows.

Section Domain.
Variable R : realFieldType.
Implicit Types s : seq R.

Lemma np_min_le s x : x \in s -> np_min s <= x.
Proof.
rewrite /np_min; move: (head 0 s) => h; elim: s => [//|y s ih] /=.
by rewrite inE le_minl => /orP [/eqP ->|/ih ->]; rewrite ?lexx ?orbT.
Qed.
Lemma np_max_ge s x : x \in s -> x <= np_max s.
Proof.
rewrite /np_max; move: (head 0 s) => h; elim: s => [//|y s ih] /=.
by rewrite inE le_maxr => /orP [/eqP ->|/ih ->]; rewrite ?lexx ?orbT.
Qed.
Lemma np_min_in s : (0 < size s)%N -> np_min s \in s.
Proof.
rewrite /np_min; case: s => [//|x s] _ /=.
suff h : foldr Num.min x s \in x :: s.
  by rewrite /Num.min; case: ifP => _ //; rewrite inE eqxx.
elim: s => [|y s ih] /=; first by rewrite inE.
rewrite /Num.min; case: ifP => _; first by rewrite !inE eqxx orbT.
by move: ih; rewrite !inE => /orP [->|->]; rewrite ?orbT.
Qed.
Lemma np_max_in s : (0 < size s)%N -> np_max s \in s.
Proof.
rewrite /np_max; case: s => [//|x s] _ /=.
suff h : foldr Num.max x s \in x :: s.
  by rewrite /Num.max; case: ifP => _ //; rewrite inE eqxx.
elim: s => [|y s ih] /=; first by rewrite inE.
rewrite /Num.max; case: ifP => _; last by rewrite !inE eqxx orbT.
by move: ih; rewrite !inE => /orP [->|->]; rewrite ?orbT.
Qed.
Lemma np_min_uniq s m : m \in s -> (forall x, x \in s -> m <= x) -> np_min s = m.
Proof.
move=> ms h; have s0 : (0 < size s)%N by case: s ms {h}.
by apply/le_anti; rewrite np_min_le // h // np_min_in.
Qed.
Lemma np_max_uniq s m : m \in s -> (forall x, x \in s -> x <= m) -> np_max s = m.
Proof.
move=> ms h; have s0 : (0 < size s)%N by case: s ms {h}.
by apply/le_anti; rewrite np_max_ge // h // np_max_in.
Qed.

Lemma size_pad_row cast r (row : seq R) : size (pad_row cast r row) = size row.
Proof. by case: row => [|a [|b t]]. Qed.

Lemma fit_domain_boundsE cast r (B : nd R) : nd_wf B -> ndim B = 2%N -> (1 < dim B 1)%N ->
  exists B', [/\ fit_domain_bounds cast r B = Ok B', nd_wf B', shape B' = shape B
               & rows B' = [seq pad_row cast r row | row <- rows B]].
Proof.
move=> wf n2 d2; rewrite /fit_domain_bounds n2 /= ltnNge d2 /=.
have a := all_size_rows wf n2.
have a' : all (fun r => size r == dim B 1) [seq pad_row cast r row | row <- rows B].
  by rewrite all_map; apply: sub_all a => x /=; rewrite size_pad_row.
eexists; split; [by [] | | by [] |].
- rewrite /nd_wf /= size_flatten /seq.shape -map_comp.
  have -> : [seq (size \o pad_row cast r) i | i <- rows B] = nseq (dim B 0) (dim B 1).
    rewrite -size_rows; elim: (rows B) a {a'} => //= x l ih /andP [/eqP e /ih <-].
    by rewrite size_pad_row e.
  move: n2; rewrite /ndim /dim; case: (Nd.shape B) => [|n [|p [|]]] //= _.
  by rewrite sumn_nseq mulnC /prodn /= muln1.
- rewrite [LHS]/rows /dim /= -/(dim B 0) -/(dim B 1) -{1}size_rows.
  by rewrite -(size_map (pad_row cast r)) rows_flatten.
Qed.
End Domain.

Section Xv.
Variable R : realFieldType.
Notation xnum := (xnum R).
Notation nthx := (nth (NaN : xnum)).

Lemma xvbop_same f (u v : seq xnum) : size u = size v ->
  xvbop f u v = Ok [seq f p.1 p.2 | p <- zip u v].
Proof. by move=> e; rewrite /xvbop e eqxx. Qed.

Lemma nth_zipmap f (u v : seq xnum) i : size u = size v -> (i < size u)%N ->
  nthx [seq f p.1 p.2 | p <- zip u v] i = f (nthx u i) (nthx v i).
Proof.
move=> e hi; rewrite (nth_map (NaN, NaN)) ?nth_zip // size_zip -e minnn //.
Qed.
End Xv.
