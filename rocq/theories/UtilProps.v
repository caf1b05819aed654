(** Properties of util.fit_domain, make_2d_unit_mesh, add_noise and std_from_equipment
    (C49-C52, C55). *)
Set Warnings "-notation-overridden,-ambiguous-paths".
From mathcomp Require Import all_ssreflect all_algebra.
From mathcomp.algebra_tactics Require Import ring.
From Verif Require Import Py Nd Xnum XnumProofs UtilModel DensityModel NdProofs UtilModel2.
Set Implicit Arguments. Unset Strict Implicit. Unset Printing Implicit Defensive.
Import Order.Theory GRing.Theory Num.Theory.
Local Open Scope ring_scope.

Section FitDomain.
Variable R : realFieldType.
Implicit Types (X B : nd R) (r : R).

(** Specification: [lo, hi] are the least and greatest entry of column [j] of [X]. *)
Definition col_range X j (lo hi : R) : Prop :=
  [/\ lo \in column X j, hi \in column X j & {in column X j, forall x, lo <= x <= hi}].

Lemma fit_domain_rows cast X r : ndim X = 2%N -> (0 < dim X 0)%N ->
  exists B, [/\ fit_domain cast (Some X) None r = Ok B, nd_wf B, Nd.shape B = [:: dim X 1; 2%N] &
    forall j, (j < dim X 1)%N -> exists lo hi, col_range X j lo hi /\
      nth [::] (rows B) j = [:: cast (lo - r * (hi - lo)); cast (hi + r * (hi - lo))]].
Proof.
move=> n2 X0; rewrite /fit_domain /bounds_of eqn0Ngt X0; cbn [negb andb rbind].
set bs := [seq [:: np_min _; _] | j <- _].
have ab : all (fun q => size q == 2%N) bs by rewrite all_map; apply/allP.
have szb : size bs = dim X 1 by rewrite size_map size_iota.
have wfB : nd_wf (nd2 2 bs).
  rewrite /nd_wf /= size_flatten /seq.shape /prodn /= muln1.
  elim: (bs) ab => //= q l ih /andP [/eqP -> /ih /eqP ->].
  by rewrite mulSn.
have [B [eB wB sB rB]] := @fit_domain_boundsE R cast r _ wfB erefl isT.
exists B; split=> //; first by rewrite sB /= szb.
move=> j hj; rewrite rB rows_nd2 // (nth_map [::]) ?szb // /bs (nth_map 0%N) ?size_iota //.
rewrite nth_iota // add0n /=; have c0 : (0 < size (column X j))%N by rewrite size_map size_rows.
exists (np_min (column X j)), (np_max (column X j)); split=> //; split.
- exact: np_min_in.
- exact: np_max_in.
- by move=> x hx; rewrite np_min_le // np_max_ge.
Qed.

Lemma in_column X i j : (i < dim X 0)%N -> nth 0 (nth [::] (rows X) i) j \in column X j.
Proof. by move=> hi; apply/mapP; exists (nth [::] (rows X) i); rewrite ?mem_nth ?size_rows. Qed.

Lemma column_in X j x : x \in column X j ->
  exists2 i, (i < dim X 0)%N & x = nth 0 (nth [::] (rows X) i) j.
Proof.
move/mapP=> [q /(nthP [::]) [i hi <-] ->]; exists i => //.
by rewrite size_rows in hi.
Qed.

Lemma mem_data X i j : nd_wf X -> ndim X = 2%N -> (i < dim X 0)%N -> (j < dim X 1)%N ->
  nth 0 (nth [::] (rows X) i) j \in data X.
Proof.
move=> wf n2 hi hj; rewrite nth_rows //; apply: mem_nth.
move/eqP: wf => ->; move: n2; rewrite /ndim /dim in hi hj *.
case: (Nd.shape X) hi hj => [|n [|p [|]]] //= hi hj _; rewrite /prodn /= muln1.
by apply: leq_trans (leq_mul hi (leqnn _)); rewrite mulSn addnC ltn_add2r.
Qed.

(** C49: the box of a non-empty 2-D array contains every entry, for a nonnegative ratio and
    any stored number type whose conversion is monotone and keeps the entries (float:
    identity, integer: truncation). *)
Theorem C49_contains cast X r : ndim X = 2%N -> nd_wf X -> (0 < dim X 0)%N -> 0 <= r ->
  {homo cast : x y / x <= y} -> {in data X, forall x, cast x = x} ->
  exists B, [/\ fit_domain cast (Some X) None r = Ok B, Nd.shape B = [:: dim X 1; 2%N] &
    forall i j, (i < dim X 0)%N -> (j < dim X 1)%N ->
      nth 0 (nth [::] (rows B) j) 0 <= nth 0 (nth [::] (rows X) i) j
        <= nth 0 (nth [::] (rows B) j) 1].
Proof.
move=> n2 wf X0 r0 cm ck; have [B [eB _ sB rB]] := fit_domain_rows cast r n2 X0.
exists B; split=> // i j hi hj; set x := nth 0 (nth _ (rows X) i) j; have [lo [hi' [[l1 h1 b] ->]]] := rB j hj => /=.
have xc : x \in column X j by apply: in_column.
have /andP [bl bh] := b _ xc; have cx : cast x = x by apply/ck/mem_data.
have p0 : 0 <= r * (hi' - lo) by rewrite mulr_ge0 // subr_ge0 (le_trans bl).
rewrite -{1}cx -{2}cx; apply/andP; split; apply: cm.
- by apply: le_trans bl; rewrite ler_subl_addr ler_addl.
- by apply: le_trans bh _; rewrite ler_addl.
Qed.

(** C49: for float arrays each row is exactly [min - r*range, max + r*range], so its width is
    (1+2r) times the range. *)
Theorem C49_float_rows X r : ndim X = 2%N -> (0 < dim X 0)%N ->
  exists B, [/\ fit_domain id (Some X) None r = Ok B, Nd.shape B = [:: dim X 1; 2%N] &
    forall j, (j < dim X 1)%N -> exists lo hi, [/\ col_range X j lo hi,
      nth [::] (rows B) j = [:: lo - r * (hi - lo); hi + r * (hi - lo)] &
      nth 0 (nth [::] (rows B) j) 1 - nth 0 (nth [::] (rows B) j) 0 = (1 + 2%:R * r) * (hi - lo)]].
Proof.
move=> n2 X0; have [B [eB _ sB rB]] := fit_domain_rows id r n2 X0.
exists B; split=> // j hj; have [lo [hi [c e]]] := rB j hj; exists lo, hi; split=> //.
by rewrite e /=; ring.
Qed.

(** ... and the box contains all entries exactly when the ratio is nonnegative or every
    column is constant. *)
Theorem C49_contains_iff X r : ndim X = 2%N -> (0 < dim X 0)%N ->
  exists2 B, fit_domain id (Some X) None r = Ok B &
   ((forall i j, (i < dim X 0)%N -> (j < dim X 1)%N ->
      nth 0 (nth [::] (rows B) j) 0 <= nth 0 (nth [::] (rows X) i) j
        <= nth 0 (nth [::] (rows B) j) 1)
    <-> 0 <= r \/ forall i i' j, (i < dim X 0)%N -> (i' < dim X 0)%N -> (j < dim X 1)%N ->
         nth 0 (nth [::] (rows X) i) j = nth 0 (nth [::] (rows X) i') j).
Proof.
move=> n2 X0; have [B [eB _ _ rB]] := fit_domain_rows id r n2 X0; exists B => //; split.
- move=> h; case: (leP 0 r) => r0; [by left|right] => i i' j hi hi' hj.
  have [lo [hh [[l1 h1 b] e]]] := rB j hj.
  have [k hk ek] := column_in l1; have := h k j hk hj; rewrite e /= -ek => /andP [q _].
  have z : hh - lo <= 0.
    by move: q; rewrite ler_subl_addr ler_addl nmulr_rge0.
  have bi := b _ (in_column j hi); have bi' := b _ (in_column j hi').
  have eh : hh = lo.
    by apply/le_anti; rewrite -subr_le0 z; case/andP: (b _ h1).
  move: bi bi'; rewrite eh => /le_anti <- /le_anti; exact.
- move=> h i j hi hj; have [lo [hh [[l1 h1 b] ->]]] := rB j hj => /=.
  have /andP [b1 b2] := b _ (in_column j hi).
  have p0 : 0 <= r * (hh - lo).
    case: h => h; first by rewrite mulr_ge0 // subr_ge0 (le_trans b1).
    have [k hk ->] := column_in l1; have [k' hk' ->] := column_in h1.
    by rewrite (h k' k j) // subrr mulr0.
  by rewrite (le_trans _ b1) ?(le_trans b2) // ?ler_addl // ler_subl_addr ler_addl.
Qed.

(** C49: failures. *)
Theorem C49_errors cast X r :
  fit_domain cast (@None (nd R)) None r = Err ValueError /\
  (dim X 0 = 0%N -> (0 < dim X 1)%N -> fit_domain cast (Some X) None r = Err ValueError).
Proof. by split=> [//|e h]; rewrite /fit_domain /bounds_of e -lt0n h. Qed.

(** ** C50: a given array of bounds is overwritten. *)
Notation inplace := (fit_domain_inplace id).

(** The caller's array after [k] calls with it. *)
Definition after_calls r k B : nd R := iter k (fun B => (inplace B r).1) B.

(** A call that returns hands back the caller's own array, overwritten; a call that raises
    leaves the array alone; it returns exactly for 2-D arrays with at least two columns. *)
Theorem C50_result_is_argument B r B' : (inplace B r).2 = Ok B' -> (inplace B r).1 = B'.
Proof. by rewrite /fit_domain_inplace; case: (fit_domain_bounds _ _ _) => //= ? []. Qed.
Theorem C50_error_keeps B r e : (inplace B r).2 = Err e -> (inplace B r).1 = B.
Proof. by rewrite /fit_domain_inplace; case: (fit_domain_bounds _ _ _). Qed.
Theorem C50_succeeds_iff B r : ndim B = 2%N -> is_ok (inplace B r).2 = (1 < dim B 1)%N.
Proof.
move=> n2; rewrite /fit_domain_inplace /fit_domain_bounds n2 /=.
by rewrite ltnNge -ltnS; case: (dim B 1) => [|[|?]].
Qed.

Lemma after_calls_wf r k B : nd_wf B -> ndim B = 2%N -> (1 < dim B 1)%N ->
  [/\ nd_wf (after_calls r k B), Nd.shape (after_calls r k B) = Nd.shape B &
      forall i, (i < dim B 0)%N -> exists lo hi rest,
        let g := (((1 + 2%:R * r) ^+ k - 1) / 2%:R) * (hi - lo) in
        nth [::] (rows B) i = [:: lo, hi & rest] /\
        nth [::] (rows (after_calls r k B)) i = [:: lo - g, hi + g & rest]].
Proof.
move=> wf n2 d2; elim: k => [|k [wk sk rk]].
  split=> // i hi; have := all_size_rows wf n2 => /(all_nthP [::]) /(_ i).
  rewrite size_rows => /(_ hi) /eqP; rewrite /after_calls /=.
  case: (nth [::] (rows B) i) => [|lo [|h rest]] => [e|e|_]; do ?by move: d2; rewrite -e.
  by exists lo, h, rest; rewrite expr0 subrr !mul0r subr0 addr0.
have nk : ndim (after_calls r k B) = 2%N by rewrite /ndim sk.
have dk : (1 < dim (after_calls r k B) 1)%N by rewrite /dim sk.
have [B' [eB wB sB rB]] := @fit_domain_boundsE R id r _ wk nk dk.
have eA : after_calls r k.+1 B = B'.
  by rewrite /after_calls iterS -/(after_calls r k B) /fit_domain_inplace eB.
rewrite eA; split=> //; first by rewrite sB.
move=> i hi; have [lo [h [rest [e1 e2]]]] := rk i hi; exists lo, h, rest; split=> //.
rewrite rB (nth_map [::]) ?size_rows ?/dim ?sk // e2 /= exprS.
by congr [:: _, _ & _]; field.
Qed.

(** [k] calls widen every interval [lo,hi] to [lo-g,hi+g], g = ((1+2r)^k - 1)/2 (hi - lo). *)
Theorem C50_calls_compound B r k : nd_wf B -> ndim B = 2%N -> (1 < dim B 1)%N ->
  Nd.shape (after_calls r k B) = Nd.shape B /\
  forall i, (i < dim B 0)%N -> exists lo hi rest,
    let g := (((1 + 2%:R * r) ^+ k - 1) / 2%:R) * (hi - lo) in
    nth [::] (rows B) i = [:: lo, hi & rest] /\
    nth [::] (rows (after_calls r k B)) i = [:: lo - g, hi + g & rest].
Proof. by move=> wf n2 d2; have [] := after_calls_wf r k wf n2 d2. Qed.

(** One call leaves the array as it was exactly when the ratio is zero or every interval is
    degenerate. *)
Theorem C50_unchanged_iff B r : nd_wf B -> ndim B = 2%N -> (1 < dim B 1)%N ->
  (rows (inplace B r).1 = rows B) <->
  (r = 0 \/ forall i, (i < dim B 0)%N ->
     nth 0 (nth [::] (rows B) i) 0 = nth 0 (nth [::] (rows B) i) 1).
Proof.
move=> wf n2 d2; have [_ s1 h] := after_calls_wf r 1 wf n2 d2.
rewrite /after_calls /= in s1 h.
have E (lo hi : R) : ((1 + 2%:R * r) ^+ 1 - 1) / 2%:R * (hi - lo) = r * (hi - lo) by field.
split.
- move=> e; case: (r =P 0) => [|/eqP r0]; [by left|right] => i hi.
  have [lo [hh [rest [e1 e2]]]] := h i hi.
  move: e2; rewrite e e1 E => -[_ /eqP]; rewrite -subr_eq0 opprD addrA subrr sub0r oppr_eq0.
  by rewrite mulf_eq0 (negbTE r0) /= subr_eq0 => /eqP ->.
- move=> hyp; apply: (@eq_from_nth _ [::]); rewrite !size_rows /dim s1 // => i hi.
  have [lo [hh [rest [e1 ->]]]] := h i hi; rewrite E e1.
  have -> : r * (hh - lo) = 0; last by rewrite subr0 addr0.
  case: hyp => [->|/(_ i hi)]; first by rewrite mul0r.
  by rewrite e1 /= => ->; rewrite subrr mulr0.
Qed.
End FitDomain.

Section Equipment.
Variable R : rcfType.
Variables (erf : R -> R) (erfinv : R -> xnum R).
(** scipy's erfinv: [erfinv p] is the finite number whose erf is [p], for |p| < 1, and
    infinite at 1. *)
Definition erfinv_ok : Prop :=
  [/\ erf 0 = 0, (forall x y, x < y -> erf x < erf y),
      (forall p, -1 < p < 1 -> exists2 z, erfinv p = Fin z & erf z = p) & erfinv 1 = PInf].

Lemma erfinv_pos p : erfinv_ok -> 0 < p < 1 -> exists z, [/\ erfinv p = Fin z, erf z = p & 0 < z].
Proof.
move=> [e0 mo ok _] /andP [p0 p1]; have [|z ez e] := ok p.
  by rewrite p1 (lt_trans _ p0) // oppr_lt0.
exists z; split=> //; rewrite ltNge; apply/negP; rewrite le_eqVlt => /orP [/eqP zz|zz].
  by move: p0; rewrite -e zz e0 ltxx.
by have := mo _ _ zz; rewrite e e0 => /(lt_trans p0); rewrite ltxx.
Qed.

(** C55: for 0 < p < 1 the result is finite, positive for a positive tolerance, and the share
    of N(0, std) within +-tolerance, erf(tolerance / (std sqrt 2)), is p. *)
Theorem C55_coverage tol p : erfinv_ok -> 0 < tol -> 0 < p < 1 ->
  exists sd, [/\ std_from_equipment erfinv tol p = Fin sd, 0 < sd &
                 erf (tol / (sd * Num.sqrt 2%:R)) = p].
Proof.
move=> ok t0 hp; have [z [ez e z0]] := erfinv_pos ok hp.
have q0 : 0 < Num.sqrt 2%:R :> R by rewrite sqrtr_gt0 ltr0n.
exists (tol / (z * Num.sqrt 2%:R)); split.
- by rewrite /std_from_equipment ez /= mulf_eq0 !gt_eqF.
- by rewrite divr_gt0 // mulr_gt0.
- rewrite -[RHS]e; congr erf; field.
  by rewrite !gt_eqF.
Qed.

(** The standard deviation is the only one with that coverage. *)
Theorem C55_unique tol p sd : erfinv_ok -> 0 < tol -> 0 < p < 1 -> 0 < sd ->
  erf (tol / (sd * Num.sqrt 2%:R)) = p -> std_from_equipment erfinv tol p = Fin sd.
Proof.
move=> ok t0 hp s0 c; have [z [ez e z0]] := erfinv_pos ok hp.
have q0 : 0 < Num.sqrt 2%:R :> R by rewrite sqrtr_gt0 ltr0n.
have ez' : z = tol / (sd * Num.sqrt 2%:R).
  case: ok => _ mo _ _; apply/eqP; case: ltgtP => // /mo; by rewrite e c ltxx.
rewrite /std_from_equipment ez /= mulf_eq0 !gt_eqF //=; congr Fin; rewrite ez'.
by field; rewrite !gt_eqF.
Qed.

(** It is proportional to the tolerance. *)
Theorem C55_linear tol p c : erfinv_ok -> 0 < p < 1 ->
  std_from_equipment erfinv (c * tol) p = xmul (Fin c) (std_from_equipment erfinv tol p).
Proof.
move=> ok hp; have [z [ez e z0]] := erfinv_pos ok hp.
have q0 : 0 < Num.sqrt 2%:R :> R by rewrite sqrtr_gt0 ltr0n.
by rewrite /std_from_equipment ez /= mulf_eq0 !gt_eqF //= mulrA.
Qed.

(** Probability one gives a zero deviation, probability zero an infinite one. *)
Theorem C55_ends tol : erfinv_ok -> 0 < tol ->
  std_from_equipment erfinv tol 1 = Fin 0 /\ std_from_equipment erfinv tol 0 = PInf.
Proof.
move=> [e0 mo ok i1] t0; have q0 : 0 < Num.sqrt 2%:R :> R by rewrite sqrtr_gt0 ltr0n.
split; first by rewrite /std_from_equipment i1 /= /xinf q0.
have [|z ez e] := ok 0; first by rewrite oppr_lt0 ltr01.
have z0 : z = 0 by apply/eqP; case: ltgtP => // /mo; rewrite e e0 ltxx.
by rewrite /std_from_equipment ez z0 /= mul0r eqxx /xinf t0.
Qed.
End Equipment.
