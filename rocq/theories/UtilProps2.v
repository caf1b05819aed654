(** Properties of util.make_2d_unit_mesh and add_noise (C51, C52). *)
Set Warnings "-notation-overridden,-ambiguous-paths".
From mathcomp Require Import all_ssreflect all_algebra.
From mathcomp.algebra_tactics Require Import ring.
From Verif Require Import Py Nd Xnum XnumProofs UtilModel DensityModel NdProofs UtilModel2.
Set Implicit Arguments. Unset Strict Implicit. Unset Printing Implicit Defensive.
Import Order.Theory GRing.Theory Num.Theory.
Local Open Scope ring_scope.

Lemma nth_flatten_nseq (V : Type) (x0 : V) n (rs : seq (seq V)) k :
  all (fun q => size q == n) rs -> (k < size rs * n)%N ->
  nth x0 (flatten rs) k = nth x0 (nth [::] rs (k %/ n)) (k %% n).
Proof.
move=> al hk; have n0 : (0 < n)%N by case: n hk {al} => //; rewrite muln0.
rewrite -{2}(rows_flatten al) nth_reshape_nseq -?divn_eq ?ltn_mod //.
by rewrite ltn_divLR.
Qed.

Lemma size_flatten_nseq (V : Type) n (rs : seq (seq V)) :
  all (fun q => size q == n) rs -> size (flatten rs) = (size rs * n)%N.
Proof.
by elim: rs => //= q rs ih /andP [/eqP e /ih h]; rewrite size_cat e h mulSn.
Qed.

Section Mesh.
Variable R : realFieldType.

(** The coordinate number [i] of [n] equispaced points from 0 to [w]. *)
Definition tick n (w : R) i : R := if n == 1%N then 0 else w * i%:R / (n.-1)%:R.

Lemma linspaceE (w : R) n : linspace 0 w (Posz n) = Ok [seq tick n w i | i <- iota 0 n].
Proof.
rewrite /linspace; congr Ok; apply/eq_in_map => i; rewrite mem_iota add0n /= => hi.
rewrite /tick; case: eqP => [e|_]; last by rewrite add0r subr0; ring.
by move: hi; rewrite e ltnS leqn0 => /eqP ->; rewrite mul0r addr0.
Qed.

(** C51: for every N >= 0 and every window the call returns N*N points; point k has the
    coordinates number (k mod N, k div N); X and Y are the N x N tables of the two
    coordinates. *)
Theorem C51_points n (w : R) : exists X Y pts,
  [/\ make_2d_unit_mesh (Posz n) w = Ok (X, Y, pts), size pts = (n * n)%N,
      (forall k, (k < n * n)%N -> nth (0, 0) pts k = (tick n w (k %% n), tick n w (k %/ n))),
      [/\ size X = n, size Y = n, all (fun q => size q == n) X & all (fun q => size q == n) Y] &
      forall i j, (i < n)%N -> (j < n)%N ->
        nth 0 (nth [::] X i) j = tick n w j /\ nth 0 (nth [::] Y i) j = tick n w i].
Proof.
rewrite /make_2d_unit_mesh linspaceE /=.
set xs := [seq tick n w i | i <- iota 0 n].
have sx : size xs = n by rewrite size_map size_iota.
set X := [seq xs | _ <- xs]; set Y := [seq nseq (size xs) b | b <- xs].
have sX : size X = n by rewrite size_map.
have sY : size Y = n by rewrite size_map.
have aX : all (fun q => size q == n) X by rewrite all_map; apply/allP => z _ /=; rewrite sx.
have aY : all (fun q => size q == n) Y.
  by rewrite all_map; apply/allP => z _ /=; rewrite size_nseq sx.
have nx i : (i < n)%N -> nth 0 xs i = tick n w i.
  by move=> hi; rewrite (nth_map 0%N) ?size_iota // nth_iota.
have E i j : (i < n)%N -> (j < n)%N ->
    nth 0 (nth [::] X i) j = tick n w j /\ nth 0 (nth [::] Y i) j = tick n w i.
  move=> hi hj; have -> : nth [::] X i = xs by rewrite /X (nth_map 0) ?sx.
  have -> : nth [::] Y i = nseq n (tick n w i) by rewrite /Y (nth_map 0) ?sx // nx.
  by rewrite nx // nth_nseq hj.
have szX : size (flatten X) = (n * n)%N by rewrite (size_flatten_nseq aX) sX.
have szY : size (flatten Y) = (n * n)%N by rewrite (size_flatten_nseq aY) sY.
exists X, Y, (zip (flatten X) (flatten Y)); split=> //.
- by rewrite size1_zip szX ?szY.
- move=> k hk; have n0 : (0 < n)%N by case: n hk {w xs sx X Y sX sY aX aY nx E szX szY}.
  rewrite nth_zip ?szX ?szY // (nth_flatten_nseq _ aX) ?sX // (nth_flatten_nseq _ aY) ?sY //.
  by have [|-> ->] := E (k %/ n)%N (k %% n)%N _ (ltn_pmod _ n0); first rewrite ltn_divLR.
Qed.

(** The first and last coordinate are 0 and the window; they increase in between. *)
Theorem C51_ticks n (w : R) : (1 < n)%N ->
  [/\ tick n w 0 = 0, tick n w n.-1 = w &
      0 < w -> forall i j, (i < j)%N -> tick n w i < tick n w j].
Proof.
rewrite /tick; case: n => [|[|n]] //= _; rewrite mulr0 mul0r mulfK ?pnatr_eq0 //; split=> // w0 i j ij.
by rewrite ltr_pmul2r ?invr_gt0 ?ltr0n // ltr_pmul2l // ltr_nat.
Qed.

(** All points lie in the square [0, w]^2. *)
Theorem C51_in_square n (w : R) X Y pts : 0 <= w -> make_2d_unit_mesh (Posz n) w = Ok (X, Y, pts) ->
  {in pts, forall p, (0 <= p.1 <= w) && (0 <= p.2 <= w)}.
Proof.
move=> w0; have [X' [Y' [ps [-> sp np _ _]]]] := C51_points n w => -[_ _ <-] p.
case/(nthP (0, 0)) => k; rewrite sp => hk <-; rewrite np //=.
have n0 : (0 < n)%N by case: n hk {sp np}.
have ok i : (i < n)%N -> 0 <= tick n w i <= w.
  rewrite /tick; case: eqP => [_ _|/eqP n1 hi]; first by rewrite lexx.
  have m0 : (0 < n.-1)%N by case: n n1 n0 {hk hi sp np} => [|[|]].
  rewrite divr_ge0 ?mulr_ge0 ?ler0n //= ler_pdivr_mulr ?ltr0n // ler_wpmul2l // ler_nat.
  by rewrite -ltnS prednK.
by rewrite !ok ?ltn_mod // ltn_divLR.
Qed.

(** For a positive window and N >= 2 the points are pairwise distinct. *)
Theorem C51_distinct n (w : R) X Y pts : (1 < n)%N -> 0 < w ->
  make_2d_unit_mesh (Posz n) w = Ok (X, Y, pts) -> uniq pts.
Proof.
move=> n1 w0; have [X' [Y' [ps [-> sp np _ _]]]] := C51_points n w => -[_ _ <-].
have [_ _ /(_ w0) mo] := C51_ticks w n1.
have inj i j : tick n w i = tick n w j -> i = j.
  by case: (ltngtP i j) => // /mo + e; rewrite e ltxx.
apply/(uniqP (0, 0)) => k l; rewrite !inE sp => hk hl; rewrite !np // => -[/inj e1 /inj e2].
by rewrite (divn_eq k n) (divn_eq l n) e1 e2.
Qed.

(** Every pair of grid coordinates occurs. *)
Theorem C51_complete n (w : R) X Y pts i j : (i < n)%N -> (j < n)%N ->
  make_2d_unit_mesh (Posz n) w = Ok (X, Y, pts) -> nth (0, 0) pts (j * n + i) = (tick n w i, tick n w j).
Proof.
move=> hi hj; have [X' [Y' [ps [-> sp np _ _]]]] := C51_points n w => -[_ _ <-].
have n0 : (0 < n)%N by apply: leq_ltn_trans hi.
rewrite np; last by apply: leq_trans (leq_mul hj (leqnn _)); rewrite mulSn addnC ltn_add2r.
by rewrite modnMDl modn_small // divnMDl // divn_small // addn0.
Qed.

(** Degenerate sizes: one point at the origin, no point, ValueError for a negative size. *)
Theorem C51_small (w : R) :
  [/\ make_2d_unit_mesh 1 w = Ok ([:: [:: 0]], [:: [:: 0]], [:: (0, 0)]),
      make_2d_unit_mesh 0 w = Ok ([::], [::], [::]) &
      forall k, make_2d_unit_mesh (Negz k) w = Err ValueError].
Proof. by split=> //; rewrite /make_2d_unit_mesh /= mul0r addr0. Qed.
End Mesh.

Section Noise.
Variables (R : realFieldType) (G : Type).
Variable reseed : int -> res G.
Variable randn : nat -> G -> seq R * G.
Notation add_noise := (add_noise reseed randn).
(** [randn n] draws n numbers. *)
Hypothesis size_randn : forall n g, size (randn n g).1 = n.

(** C52: with a seed neither the result nor the generator's state afterwards depends on the
    state before (for a seed numpy accepts). *)
Theorem C52_seed_reproducible signal sd k g g' : is_ok (reseed k) ->
  add_noise signal sd (Some k) g = add_noise signal sd (Some k) g'.
Proof. by rewrite /UtilModel2.add_noise; case: (reseed k). Qed.

(** A rejected seed raises and leaves the generator as it was. *)
Theorem C52_bad_seed signal sd k e g : reseed k = Err e ->
  add_noise signal sd (Some k) g = (g, Err e).
Proof. by rewrite /UtilModel2.add_noise => ->. Qed.

(** Seeding first and calling without a seed is the same as calling with the seed; the draws
    depend on the signal only through its number of entries. *)
Theorem C52_unseeded signal sd k g g1 : reseed k = Ok g1 ->
  add_noise signal sd (Some k) g = add_noise signal sd None g1.
Proof. by rewrite /UtilModel2.add_noise => ->. Qed.

Lemma add_last1 (s v : seq R) : size v = size s -> (0 < size s)%N ->
  add_last (nd1 s) v = Ok (nd1 [seq p.1 + p.2 | p <- zip s v]).
Proof.
move=> e s0; rewrite /add_last /= e eqxx divnn s0 /= take_size cats0.
by rewrite /nd1 size_map size1_zip ?e.
Qed.

(** A 1-D signal: entry i of the result is entry i of the signal plus sd times draw i;
    same length; the generator advances by that many draws. *)
Theorem C52_entries (s : seq R) sd seed g g1 : (0 < size s)%N ->
  (if seed is Some k then reseed k else Ok g) = Ok g1 ->
  exists out, [/\ add_noise (nd1 s) sd seed g = ((randn (size s) g1).2, Ok (nd1 out)),
    size out = size s &
    forall i, (i < size s)%N -> nth 0 out i = nth 0 s i + nth 0 (randn (size s) g1).1 i * sd].
Proof.
move=> s0 e; rewrite /UtilModel2.add_noise e /=; have := size_randn (size s) g1.
case: (randn (size s) g1) => z g2 /= sz.
rewrite add_last1 ?size_map //; eexists; split; first by [].
  by rewrite size_map size1_zip ?size_map ?sz.
move=> i hi; rewrite (nth_map (0, 0)) ?size1_zip ?size_map ?sz // nth_zip ?size_map ?sz //=.
by rewrite (nth_map 0) ?sz.
Qed.

(** Zero deviation returns the signal. *)
Theorem C52_zero_sd (s : seq R) seed g g1 : (0 < size s)%N ->
  (if seed is Some k then reseed k else Ok g) = Ok g1 ->
  (add_noise (nd1 s) 0 seed g).2 = Ok (nd1 s).
Proof.
move=> s0 e; have [out [-> so no]] := C52_entries 0 s0 e; congr (Ok (nd1 _)).
by apply: (@eq_from_nth _ 0) => // i; rewrite so => hi; rewrite no // mulr0 addr0.
Qed.

(** A signal of more than one dimension is accepted only if its last dimension is 1 or equals
    the number of entries; a column of m > 1 numbers gives an m x m array whose row i is
    the i-th entry plus all the noise. *)
Theorem C52_2d_accepted_iff m n (d : seq R) sd seed g g1 : size d = (m * n)%N ->
  (if seed is Some k then reseed k else Ok g) = Ok g1 ->
  is_ok (add_noise (Nd [:: m; n] d) sd seed g).2 = [|| m == 1%N, n == 1%N | n == 0%N].
Proof.
move=> sd' e; rewrite /UtilModel2.add_noise e /= sd'; have := size_randn (m * n) g1.
case: (randn (m * n) g1) => z g2 /= sz; rewrite /add_last /= size_map sz.
case: (n =P 0)%N => [->|/eqP n0]; first by rewrite muln0 eqxx !orbT.
case: (m =P 1)%N => [->|/eqP m1]; first by rewrite mul1n eqxx.
have -> : (n == m * n)%N = false.
  by apply/negbTE; rewrite -{1}[n]mul1n eqn_mul2r negb_or n0 eq_sym.
case: (n =P 1)%N => [//|/eqP n1] /=.
by rewrite muln_eq1 (negbTE m1).
Qed.

Theorem C52_column_blows_up m (d : seq R) sd seed g g1 : size d = m -> (1 < m)%N ->
  (if seed is Some k then reseed k else Ok g) = Ok g1 ->
  exists out, [/\ (add_noise (Nd [:: m; 1%N] d) sd seed g).2 = Ok out, Nd.shape out = [:: m; m] &
    forall i j, (i < m)%N -> (j < m)%N ->
      nth 0 (nth [::] (rows out) i) j = nth 0 d i + nth 0 (randn m g1).1 j * sd].
Proof.
move=> sd' m1 e; rewrite /UtilModel2.add_noise e /= sd'; have := size_randn m g1.
case: (randn m g1) => z g2 /= sz; rewrite /add_last /= size_map sz.
have -> : (1%N == m) = false by apply/negbTE; case: m m1 {sd' e sz} => [|[|]].
eexists; split; [by []|by []|] => i j hi hj /=.
set v := [seq x * sd | x <- z]; have sv : size v = m by rewrite size_map.
have al : all (fun q => size q == m) [seq [seq x + y | y <- v] | x <- d].
  by rewrite all_map; apply/allP => x _ /=; rewrite size_map sv.
have -> : rows (Nd [:: m; m] (flatten [seq [seq x + y | y <- v] | x <- d]))
          = [seq [seq x + y | y <- v] | x <- d].
  by rewrite -[RHS](rows_flatten al) /rows /dim /= size_map sd'.
by rewrite (nth_map 0) ?sd' // (nth_map 0) ?sv // (nth_map 0) ?sz.
Qed.

(** The empty signal stays empty. *)
Theorem C52_empty sd seed g g1 :
  (if seed is Some k then reseed k else Ok g) = Ok g1 ->
  (add_noise (nd1 [::]) sd seed g).2 = Ok (nd1 [::]).
Proof.
move=> e; rewrite /UtilModel2.add_noise e /=; have := size_randn 0 g1.
by case: (randn 0 g1) => -[].
Qed.
End Noise.
