(** Properties C128, C129: what run_fenics generates; the boundary data of the Poisson problem. *)
Set Warnings "-notation-overridden,-ambiguous-paths".
From mathcomp Require Import all_ssreflect all_algebra.
From mathcomp.algebra_tactics Require Import ring.
From Coq Require Import String.
From mathcomp Require Import zify.
From Verif Require Import Py Nd NdProofs UtilModel UtilModel2 DensityModel StModel StProps SimpleModel StExModel StExProps PoisModel PoisProps FenModel.
Set Implicit Arguments. Unset Strict Implicit. Unset Printing Implicit Defensive.
Import Order.Theory GRing.Theory Num.Theory.
Local Open Scope ring_scope.

Section FenProps.
Variable R : rcfType.
Notation nd := (nd R).
Variable G : Type.
Variable reseed : int -> res G.
Variable rand : nat -> G -> seq R * G.
Variable solve : seq R -> R -> R -> R.
Variable solve_gamma : R -> R -> R -> R.
Notation fenics := (run_fenics reseed rand solve solve_gamma).

(** ** C128 *)
(** Rows of uniform draws: entry (i, j) is the draw number i * c + j, scaled to [lo j, hi j]. *)
Definition scaled (a : nd) (n c : nat) (lo hi : nat -> R) (z : seq R) : Prop :=
  nd_wf a /\ Nd.shape a = [:: n; c] /\
  forall i j, (i < n)%N -> (j < c)%N -> ent a i j = lo j + (hi j - lo j) * nth 0 z (i * c + j).

Lemma scaled_rows (low high : seq R) n z :
  scaled (Nd [:: n; size low] (flatten (uniform_rows low high n z))) n (size low) (nth 0 low) (nth 0 high) z.
Proof.
have al : all (fun r : seq R => size r == size low) (uniform_rows low high n z).
  by apply/allP => r /mapP [i _ ->]; rewrite size_mkseq.
have sz : size (uniform_rows low high n z) = n by rewrite size_mkseq.
have -> : Nd [:: n; size low] (flatten (uniform_rows low high n z)) = nd2 (size low) (uniform_rows low high n z).
  by rewrite /nd2 sz.
split.
  by rewrite /nd_wf /nd2 /= /prodn /= muln1 (size_flatten_rows al).
split; first by rewrite /nd2 /= sz.
move=> i j hi hj; rewrite /ent rows_nd2 // (nth_map 0%N) ?size_iota // nth_iota // add0n.
by rewrite (nth_map 0%N) ?size_iota // nth_iota // add0n.
Qed.

Theorem C128_generated n k mins maxs low high gamma seed u g g0 : size mins = size maxs ->
  (if seed is Some q then reseed q else Ok g) = Ok g0 ->
  let: (zs, g1) := rand (k * 2) g0 in let: (zl, g2) := rand (n * size mins) g1 in
  exists lam dat tv dom sens : nd,
  [/\ fenics (Posz n) (Posz k) mins maxs low high gamma seed u g =
        (g2, Ok [:: ("lam", VArr lam); ("data", VArr dat); ("true_vals", VArr tv); ("domain", VArr dom);
                    ("sensors", VArr sens); ("u", u)]%string),
      scaled sens k 2 (nth 0 [:: low.1; low.2]) (nth 0 [:: high.1; high.2]) zs,
      scaled lam n (size mins) (nth 0 mins) (nth 0 maxs) zl,
      Nd.shape dat = [:: n; k] /\ (forall i s, (i < n)%N -> (s < k)%N ->
         ent dat i s = solve (nth [::] (rows lam) i) (ent sens s 0) (ent sens s 1)) &
      [/\ Nd.shape tv = [:: k; 1%N], forall s, (s < k)%N -> ent tv s 0 = solve_gamma gamma (ent sens s 0) (ent sens s 1),
          Nd.shape dom = [:: size mins; 2%N] &
          forall j, (j < size mins)%N -> ent dom j 0 = nth 0 mins j /\ ent dom j 1 = nth 0 maxs j]].
Proof.
move=> sm eg; rewrite /run_fenics eg sm eqxx; cbn [negb].
case: (rand (k * 2) g0) => zs g1; case E2: (rand _ g1) => [zl g2]; rewrite -sm.
set S := uniform_rows _ _ k zs; set L := uniform_rows mins maxs n zl.
have hS : size S = k by rewrite size_mkseq.
have hL : size L = n by rewrite size_mkseq.
have aS : all (fun r : seq R => size r == 2%N) S by apply/allP => r /mapP [i _ ->]; rewrite size_mkseq.
have aL : all (fun r : seq R => size r == size mins) L by apply/allP => r /mapP [i _ ->]; rewrite size_mkseq.
do 5 eexists; split; first reflexivity.
- exact: (@scaled_rows [:: low.1; low.2] [:: high.1; high.2] k zs).
- exact: scaled_rows.
- split=> // i s hi hs.
  set D := Nd [:: n; k] _; have -> : D = nd2 k [seq [seq solve l (nth 0 s 0) (nth 0 s 1) | s <- S] | l <- L].
    by rewrite /D /nd2 size_map hL.
  rewrite {1}/ent rows_nd2; last by apply/allP => r /mapP [l _ ->]; rewrite size_map hS.
  rewrite (nth_map [::]) ?hL // (nth_map [::]) ?hS //; congr solve.
  + by have -> : Nd [:: n; size mins] (flatten L) = nd2 (size mins) L by [rewrite /nd2 hL]; rewrite rows_nd2.
  + by have -> : Nd [:: k; 2%N] (flatten S) = nd2 2 S by [rewrite /nd2 hS]; rewrite /ent rows_nd2.
  + by have -> : Nd [:: k; 2%N] (flatten S) = nd2 2 S by [rewrite /nd2 hS]; rewrite /ent rows_nd2.
split=> //.
- move=> s hs; have -> : Nd [:: k; 2%N] (flatten S) = nd2 2 S by [rewrite /nd2 hS].
  set D := Nd _ _; have -> : D = nd2 1 [seq [:: solve_gamma gamma (nth 0 s 0) (nth 0 s 1)] | s <- S].
    rewrite /D /nd2 size_map hS; congr Nd; by elim: (S) => [//|r l ih] /=; rewrite -ih.
  rewrite /ent !rows_nd2 //; last by apply/allP => r /mapP [l _ ->].
  by rewrite (nth_map [::]) ?hS.
- move=> j hj; set D := Nd _ _.
  have -> : D = nd2 2 [seq [:: p.1; p.2] | p <- zip mins maxs].
    by rewrite /D /nd2 size_map size_zip -sm minnn.
  rewrite /ent !rows_nd2 //; last by apply/allP => r /mapP [l _ ->].
  by rewrite (nth_map (0, 0)) ?size_zip -?sm ?minnn // nth_zip.
Qed.

(** Draws of [0, 1): samples and sensors lie in their boxes. *)
Theorem C128_in_box (a : nd) n c lo hi z : scaled a n c lo hi z -> (forall m, 0 <= nth 0 z m < 1) ->
  forall i j, (i < n)%N -> (j < c)%N -> lo j < hi j -> lo j <= ent a i j < hi j.
Proof.
move=> [_ [_ h]] hz i j hi' hj lt; rewrite h //; have /andP [z0 z1] := hz (i * c + j)%N.
have d0 : 0 < hi j - lo j by rewrite subr_gt0.
rewrite ler_addl mulr_ge0 ?(ltW d0) //=.
by rewrite addrC -ltr_subr_addr -[ltRHS]mulr1 ltr_pmul2l.
Qed.

Theorem C128_errors ns nk mins maxs low high gamma seed u g :
  is_ok (fenics ns nk mins maxs low high gamma seed u g).2 =
  [&& is_ok (if seed is Some q then reseed q else Ok g), size mins == size maxs, 0 <= nk & 0 <= ns].
Proof.
rewrite /run_fenics; case: (if seed is Some q then _ else _) => [g0|] //=.
case: (_ == _) => //=; case: nk => [k|] //=; case: (rand _ g0) => zs g1.
by case: ns => [n|] //=; case: (rand _ g1).
Qed.

(** The same seed gives the same data set, whatever was drawn before. *)
Theorem C128_reproducible ns nk mins maxs low high gamma q u g g' : is_ok (reseed q) ->
  fenics ns nk mins maxs low high gamma (Some q) u g = fenics ns nk mins maxs low high gamma (Some q) u g'.
Proof. by rewrite /run_fenics; case: (reseed q). Qed.

(** ** C129 *)
Notation g_ := (@true_boundary R).

(** On the unit interval the true boundary data lies between gamma and 0; it is gamma exactly
    at 2/7 and 0 exactly at the ends. *)
Notation n7 := (823%:R * 1000%:R + 543%:R).
Notation rest_ x := (3125%:R * (1 - x) ^+ 5 + 375%:R * 100%:R * x * (1 - x) ^+ 4
   + (277%:R * 100%:R + 8%:R) * x ^+ 2 * (1 - x) ^+ 3
   + (135%:R * 100%:R + 40%:R) * x ^+ 3 * (1 - x) ^+ 2 + 3900%:R * x ^+ 4 * (1 - x) + 500%:R * x ^+ 5).
Lemma boundary_id (x : R) : 125%:R * 100%:R - n7 * (x ^+ 2 * (1 - x) ^+ 5) = (7%:R * x - 2%:R) ^+ 2 * rest_ x.
Proof. ring. Qed.
Lemma rest_gt0 (x : R) : 0 <= x <= 1 -> 0 < rest_ x.
Proof.
move=> /andP [x0 x1]; have y0 : 0 <= 1 - x by rewrite subr_ge0.
have nn (c : R) i j : 0 <= c -> 0 <= c * x ^+ i * (1 - x) ^+ j.
  by move=> c0; apply: mulr_ge0; [apply: mulr_ge0 => //|]; exact: exprn_ge0.
have h0 : 0 <= 375%:R * 100%:R * x * (1 - x) ^+ 4 by apply: (nn _ 1%N); rewrite -natrM ler0n.
have h1 : 0 <= (277%:R * 100%:R + 8%:R) * x ^+ 2 * (1 - x) ^+ 3 by apply: nn; rewrite -natrM -natrD ler0n.
have h2 : 0 <= (135%:R * 100%:R + 40%:R) * x ^+ 3 * (1 - x) ^+ 2 by apply: nn; rewrite -natrM -natrD ler0n.
have h3 : 0 <= 3900%:R * x ^+ 4 * (1 - x) by apply: (nn _ _ 1%N); rewrite ler0n.
have h4 : 0 <= 500%:R * x ^+ 5 by apply: mulr_ge0; [rewrite ler0n | exact: exprn_ge0].
have h5 : 0 <= 3125%:R * (1 - x) ^+ 5 by apply: mulr_ge0; [rewrite ler0n | exact: exprn_ge0].
case: (ltP x 1) => [lt|ge].
  have a : 0 < 3125%:R * (1 - x) ^+ 5 by rewrite mulr_gt0 ?ltr0n // exprn_gt0 // subr_gt0.
  by do 5 (apply: ltr_paddr => //).
have xp : 0 < x by apply: lt_le_trans ge; exact: ltr01.
have a : 0 < 500%:R * x ^+ 5 by rewrite mulr_gt0 ?ltr0n ?exprn_gt0.
by apply: ltr_paddl a; do 4 (apply: addr_ge0 => //).
Qed.

Let n7_gt0 : 0 < n7 :> R. Proof. by rewrite addr_gt0 ?mulr_gt0 ?ltr0n. Qed.
Let c_gt0 : 0 < 125%:R * 100%:R :> R. Proof. by rewrite mulr_gt0 ?ltr0n. Qed.

(** gamma - g(x) = gamma * (nonnegative), zero exactly at 2/7. *)
Lemma boundary_gap (gamma : R) (p : seq R) : g_ gamma p - gamma =
  - gamma * ((7%:R * nth 0 p 1 - 2%:R) ^+ 2 * rest_ (nth 0 p 1)) / (125%:R * 100%:R).
Proof.
rewrite -boundary_id /true_boundary; set x := nth 0 p 1.
have c0 : 125%:R * 100%:R != 0 :> R by rewrite gt_eqF.
apply: (mulIf c0); rewrite divfK // mulrBl.
rewrite -[x ^+ 2 * (1 - x) ^+ 5 * _ * _]mulrA divfK //; ring.
Qed.

Theorem C129_range (gamma : R) (p : seq R) : gamma < 0 -> 0 <= nth 0 p 1 <= 1 ->
  [/\ gamma <= g_ gamma p <= 0, g_ gamma p = gamma <-> nth 0 p 1 = 2%:R / 7%:R &
      g_ gamma p = 0 <-> nth 0 p 1 = 0 \/ nth 0 p 1 = 1].
Proof.
move=> gn hx; have rg := rest_gt0 hx; have gap := boundary_gap gamma p.
have m0 : 0 < - gamma / (125%:R * 100%:R) by rewrite divr_gt0 // oppr_gt0.
have gapE : g_ gamma p - gamma = (- gamma / (125%:R * 100%:R)) * rest_ (nth 0 p 1) * (7%:R * nth 0 p 1 - 2%:R) ^+ 2.
  rewrite gap; move: (rest_ _) (7%:R * _ - _) (_^-1) => r t c; ring.
have k0 := mulr_gt0 m0 rg.
have tb : g_ gamma p = - (nth 0 p 1 ^+ 2 * (1 - nth 0 p 1) ^+ 5 * (- gamma * n7 / (125%:R * 100%:R))).
  rewrite /true_boundary; move: (nth 0 p 1) n7 (_^-1) => x n c; ring.
have q0 : 0 < - gamma * n7 / (125%:R * 100%:R) by rewrite divr_gt0 // mulr_gt0 // oppr_gt0.
case/andP: (hx) => x0 x1; have y0 : 0 <= 1 - nth 0 p 1 by rewrite subr_ge0.
split.
- rewrite -subr_ge0 gapE mulr_ge0 ?(ltW k0) ?sqr_ge0 //=.
  rewrite tb oppr_le0; apply: mulr_ge0; last exact: ltW.
  by apply: mulr_ge0; exact: exprn_ge0.
- split=> [e|e].
    move: gapE; rewrite e subrr => /esym/eqP; rewrite mulf_eq0 (gt_eqF k0) /= expf_eq0 /= subr_eq0 => /eqP e7.
    by rewrite -e7 mulrAC divff ?mul1r // pnatr_eq0.
  apply/eqP; rewrite -subr_eq0 gapE e.
  have -> : 7%:R * (2%:R / 7%:R) - 2%:R = 0 :> R by rewrite mulrCA divff ?pnatr_eq0 // mulr1 subrr.
  by rewrite expr0n /= mulr0.
- split=> [/eqP|e].
    rewrite tb oppr_eq0 mulf_eq0 (gt_eqF q0) orbF mulf_eq0 !expf_eq0 /= => /orP [/eqP -> | h]; first by left.
    by right; apply/eqP; rewrite eq_sym -subr_eq0.
  by rewrite tb; case: e => ->; rewrite ?subrr !expr0n /= ?mulr0 ?mul0r oppr0.
Qed.

(** The reference curve of the plots is the boundary data of the solver for gamma = -3 and no
    other gamma. *)
Theorem C129_reference gamma : (forall p, g_ gamma p = g_true (nth 0 p 1)) <-> gamma = - 3%:R.
Proof.
have e197 : a_true R = 3%:R * n7 / (125%:R * 100%:R).
  have c0 : 125%:R * 100%:R != 0 :> R by rewrite gt_eqF.
  have t0 : 10%:R != 0 :> R by rewrite pnatr_eq0.
  have u0 : 10%:R ^+ 5 != 0 :> R by rewrite expf_neq0.
  have v0 : 10%:R ^+ 2 != 0 :> R by rewrite expf_neq0.
  apply: (mulIf c0); apply: (mulIf u0); rewrite divfK // /a_true.
  have -> : (197%:R + 65%:R / 10%:R ^+ 2 + 32%:R / 10%:R ^+ 5) * (125%:R * 100%:R) * 10%:R ^+ 5 =
     197%:R * (125%:R * 100%:R) * 10%:R ^+ 5 + 65%:R / 10%:R ^+ 2 * 10%:R ^+ 2 * (125%:R * 100%:R) * 10%:R ^+ 3
     + 32%:R / 10%:R ^+ 5 * 10%:R ^+ 5 * (125%:R * 100%:R) :> R.
    by move: (_ / 10%:R ^+ 2) (_ / 10%:R ^+ 5) => u v; ring.
  by rewrite !divfK //; ring.
have c0 : 125%:R * 100%:R != 0 :> R by rewrite gt_eqF.
split=> [h|->] => [|p]; last first.
  rewrite /true_boundary /g_true e197; move: (nth 0 p 1) n7 (_^-1) => x n c; ring.
have := h [:: 0; 2%:R / 7%:R]; have := boundary_gap gamma [:: 0; 2%:R / 7%:R]; rewrite /g_true e197 /=.
have -> : 7%:R * (2%:R / 7%:R) - 2%:R = 0 :> R by rewrite mulrCA divff ?pnatr_eq0 // mulr1 subrr.
rewrite expr0n /= mul0r mulr0 mul0r => /eqP; rewrite subr_eq0 => /eqP -> ->.
have := boundary_gap (- 3%:R) [:: 0; 2%:R / 7%:R] => /=.
have -> : 7%:R * (2%:R / 7%:R) - 2%:R = 0 :> R by rewrite mulrCA divff ?pnatr_eq0 // mulr1 subrr.
rewrite expr0n /= mul0r mulr0 mul0r => /eqP; rewrite subr_eq0 => /eqP <-.
rewrite /true_boundary /=; move: (2%:R / 7%:R) n7 (_^-1) => x n c; ring.
Qed.

(** Whatever the parameters, the data the solver uses for them is positive somewhere in (0, 1),
    where the true data is negative: no parameters reproduce it. *)
Theorem C129_never_reproduced (gamma : R) (u : seq R) : gamma < 0 ->
  exists p, [/\ 0 < nth 0 p 1, nth 0 p 1 < 1, 0 < g_L gamma (Some u) p & g_L gamma None p < 0].
Proof.
move=> gn; set n := (size u).+1; set c := 1 - knot u 1 (size u).
have n0 : 0 < n%:R :> R by rewrite ltr0n.
have n1 : 1 <= n%:R :> R by rewrite ler1n.
have d0 : 0 < `|c| + 1 by rewrite ltr_spaddr ?ltr01.
have dn0 : 0 < 2%:R * n%:R * (`|c| + 1) by rewrite !mulr_gt0 ?ltr0n.
pose e := (2%:R * n%:R * (`|c| + 1))^-1.
have e0 : 0 < e by rewrite invr_gt0.
have en : n%:R * e * (`|c| + 1) = 2%:R^-1.
  rewrite /e; have h2 : 2%:R != 0 :> R by rewrite pnatr_eq0.
  apply: (mulIf h2); rewrite mulVf //.
  rewrite -[RHS](@divff _ (2%:R * n%:R * (`|c| + 1))) ?gt_eqF //; move: (_^-1) => i; ring.
have half : 2%:R^-1 < 1 :> R by rewrite invf_lt1 ?ltr0n // ltr1n.
have ne : n%:R * e <= 2%:R^-1.
  by rewrite -en -[leLHS]mulr1 ler_pmul2l ?mulr_gt0 // ler_addr.
have e1 : e < 1.
  by apply: le_lt_trans half; apply: le_trans ne; rewrite -[leLHS]mul1r ler_pmul2r.
exists [:: 0; 1 - e] => /=; rewrite subr_gt0 e1 ltr_subl_addr ltr_addl e0; split=> //.
- have := @C113_tends_to_one R u 1 [:: 0; 1 - e]; cbv zeta; cbn [nth].
  rewrite -/n -/c opprB addrCA subrr addr0 => h.
  have {}h : 1 - piecewise_eval_from_vector u 1 [:: 0; 1 - e] = n%:R * e * c.
    apply: h; rewrite /on_segment -/n divff ?gt_eqF // ltr_subl_addr ltr_addl e0 andbT.
    have -> : (size u)%:R = n%:R - 1 :> R by rewrite /n -addn1 natrD addrK.
    rewrite mulrBl divff ?gt_eqF // ler_add2l ler_oppr opprK div1r.
    rewrite -[leRHS]mul1r ler_pdivl_mulr // mulrC; exact: le_trans ne (ltW half).
  rewrite -[piecewise_eval_from_vector _ _ _](subKr 1) h subr_gt0.
  apply: le_lt_trans half; rewrite -en ler_pmul2l ?mulr_gt0 //.
  by apply: le_trans (ler_norm c) _; rewrite ler_addl.
- have hx : 0 <= nth 0 [:: 0; 1 - e] 1 <= 1 by rewrite /= subr_ge0 (ltW e1) ler_subl_addr ler_addl ltW.
  have [/andP [_ le0] _ iff0] := C129_range gn hx; rewrite lt_neqAle le0 andbT.
  apply/eqP => /iff0 /= []; first by move/eqP; rewrite subr_eq0 eq_sym (lt_eqF e1).
  by move/eqP; rewrite -subr_eq0 addrAC subrr add0r oppr_eq0 (gt_eqF e0).
Qed.
End FenProps.
