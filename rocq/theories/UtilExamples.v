(** Concrete cases for the util theorems (C49-C55) and witnesses that the tempting stronger
    claims are false of the code. *)
Set Warnings "-notation-overridden,-ambiguous-paths".
From mathcomp Require Import all_ssreflect all_algebra.
From mathcomp.algebra_tactics Require Import ring.
From Verif Require Import Py Spec Nd Xnum XnumProofs UtilModel DensityModel NdProofs UtilModel2
  UtilProps UtilProps2 UtilProps3.
Set Implicit Arguments. Unset Strict Implicit. Unset Printing Implicit Defensive.
Import Order.Theory GRing.Theory Num.Theory.
Local Open Scope ring_scope.

(** The docstring of fit_domain: [[1,10],[0,-10]] with ratio 1. *)
Definition exfx : nd rat := Nd [:: 2; 2]%N [:: 1; 10%:R; 0; - 10%:R].
Example C49_docstring :
  fit_domain id (Some exfx) None 1 = Ok (Nd [:: 2; 2]%N [:: -1; 2%:R; - 30%:R; 30%:R]).
Proof. by congr (Ok (Nd _ _)); apply/eqP; vm_compute. Qed.
Example C49_hypotheses_met : [/\ ndim exfx = 2%N, nd_wf exfx & (0 < dim exfx 0)%N].
Proof. by []. Qed.
(** A negative ratio: entries outside the box. *)
Example C49_negative_ratio_refuted :
  exists2 B, fit_domain id (Some exfx) None (- 4%:R^-1) = Ok B &
    ~~ (nth 0 (nth [::] (rows B) 0) 0 <= nth 0 (nth [::] (rows exfx) 1) 0).
Proof. by eexists; first reflexivity; vm_compute. Qed.

(** C50: the tempting claim "the caller's array is not modified" is false. *)
Definition exB : nd rat := Nd [:: 1; 2]%N [:: 0; 1].
Theorem C50_leaves_argument_refuted :
  (fit_domain_inplace id exB 1).1 = Nd [:: 1; 2]%N [:: -1; 2%:R] /\
  (fit_domain_inplace id exB 1).1 <> exB.
Proof.
have E : (fit_domain_inplace id exB 1).1 = Nd [:: 1; 2]%N [:: -1; 2%:R] by congr Nd; apply/eqP; vm_compute.
by split=> //; rewrite E => -[] /eqP.
Qed.
Example C50_hypotheses_met : [/\ nd_wf exB, ndim exB = 2%N & (1 < dim exB 1)%N].
Proof. by []. Qed.

(** The docstring of make_2d_unit_mesh. *)
Example C51_docstring : exists X Y, make_2d_unit_mesh 3 (1 : rat) =
  Ok (X, Y, [:: (0, 0); (2%:R^-1, 0); (1, 0); (0, 2%:R^-1); (2%:R^-1, 2%:R^-1); (1, 2%:R^-1);
                (0, 1); (2%:R^-1, 1); (1, 1)]).
Proof. by do 2 eexists; rewrite /make_2d_unit_mesh; vm_compute. Qed.

(** C52: a toy generator: the state counts draws, seeds below zero are rejected. *)
Definition rs (k : int) : res nat := if k is Posz n then Ok n else Err ValueError.
Definition rn (n g : nat) : seq rat * nat := ([seq i%:R | i <- iota g n], (g + n)%N).
Example C52_hypotheses_met : is_ok (rs 21) /\ forall n g, size (rn n g).1 = n.
Proof. by split=> // n g; rewrite size_map size_iota. Qed.
(** Without a seed the result depends on the state of the generator. *)
Example C52_unseeded_differs :
  (add_noise rs rn (nd1 [:: 1; 1]) 1 None 0%N).2 <> (add_noise rs rn (nd1 [:: 1; 1]) 1 None 1%N).2.
Proof. by vm_compute. Qed.
(** A column of two numbers comes back as a 2 x 2 array. *)
Example C52_column : (add_noise rs rn (Nd [:: 2; 1]%N [:: 5%:R; 7%:R]) 1 None 0%N).2 =
  Ok (Nd [:: 2; 2]%N [:: 5%:R; 6%:R; 7%:R; 8%:R]).
Proof. by congr (Ok (Nd _ _)); apply/eqP; vm_compute. Qed.

(** C53/C54 on diagonal 2 x 2 matrices diag(a, b) with a >= b >= 0. *)
Definition dsvd (a b : rat) : svd_out rat_realFieldType 2 2 := Svd 1%:M [:: a; b] 1%:M.
Lemma dsvd_ok (a b : rat) : 0 <= b <= a -> is_svd (diag_of 2 2 [:: a; b]) (dsvd a b).
Proof.
case/andP=> b0 ba; split; rewrite //= ?mul1mx ?mulmx1 ?trmx1 //.
by rewrite ba b0 (le_trans b0 ba).
Qed.
Example C53_hypotheses_met : is_svd (diag_of 2 2 [:: 2%:R; 0]) (dsvd 2%:R 0) /\
  all (fun x => (x == 0) || (tol_of (10%:R^-1) (dsvd 2%:R 0) None < x)) [:: 2%:R; 0].
Proof. by split; [apply: dsvd_ok|vm_compute]. Qed.
(** A column that is not in the kernel: diag(1, 1/10) with rcond = 1/2. *)
Theorem C53_always_kernel_refuted : let A := diag_of 2 2 [:: 1; (10%:R^-1 : rat)] in
  exists k (Q : 'M[rat]_(2, k)), is_svd A (dsvd 1 (10%:R^-1)) /\
   null_space 0 (dsvd 1 (10%:R^-1)) (Some (2%:R^-1)) = Ok (existT _ k Q) /\ A *m Q != 0.
Proof.
move=> A; have svd : is_svd A (dsvd 1 (10%:R^-1)) by apply: dsvd_ok.
have h : 0 <= odflt (0 * (maxn 2 2)%:R) (Some (2%:R^-1 : rat)) by rewrite invr_ge0 ler0n.
have [k [Q [e z]]] := C53_exact_iff svd isT h.
by exists k, Q; split; [exact: svd|split; [exact: e|rewrite z; vm_compute]].
Qed.

(** C54: the last matrix returned for diag(2,1) is diag(0,1), not diag(2,1). *)
Theorem C54_last_is_matrix_refuted : let A := diag_of 2 2 [:: 2%:R; 1 : rat] in
  is_svd A (dsvd 2%:R 1) /\
  exists rs, [/\ rank_decomposition (dsvd 2%:R 1) = Ok rs, size rs = 2%N & nth 0 rs 1 <> A].
Proof.
move=> A; split; first exact: dsvd_ok.
have [rs [e sr _ rk]] := C54_terms (d := dsvd 2%:R 1) erefl (leqnn 2) isT.
exists rs; split=> //; rewrite rk // => /matrixP /(_ 0 0).
rewrite summxE big1 => [|i /andP [i0 _]]; first by rewrite mxE.
rewrite !mxE big_ord1 !mxE /=; case: i i0 => -[|k] // h _.
by rewrite [0 == Ordinal h](_ : _ = false) // !mulr0.
Qed.

(** C55: an increasing function with an inverse on (-1,1), in place of erf. *)
Section Erf.
Variable R : rcfType.
Definition xerf (x : R) : R := x / (1 + `|x|).
Definition xerfinv (p : R) : xnum R := if p == 1 then PInf else Fin (p / (1 - `|p|)).
Example C55_hypotheses_met : erfinv_ok xerf xerfinv.
Proof.
have pos (x : R) : 0 < 1 + `|x| by rewrite ltr_spaddl.
split; first by rewrite /xerf mul0r.
- move=> x y xy; rewrite /xerf ltr_pdivr_mulr // mulrAC ltr_pdivl_mulr // !mulrDr !mulr1.
  case: (leP 0 x) => x0.
    have y0 : 0 <= y by apply: le_trans x0 (ltW xy).
    by rewrite !ger0_norm // mulrC ltr_add2r.
  case: (leP 0 y) => y0.
    rewrite (ger0_norm y0) (ltr0_norm x0).
    apply: (@lt_le_trans _ _ (0 + x * y)); first by rewrite ltr_add2r.
    rewrite add0r; apply: (@le_trans _ _ 0); first by rewrite mulr_le0_ge0 // ltW.
    by rewrite addr_ge0 // mulr_ge0 // oppr_ge0 ltW.
  by rewrite !ltr0_norm // !mulrN [y * x]mulrC ltr_add2r.
- move=> p /andP [p0 p1]; have n1 : `|p| < 1 by rewrite ltr_norml p0.
  exists (p / (1 - `|p|)); first by rewrite /xerfinv lt_eqF.
  have q0 : 0 < 1 - `|p| by rewrite subr_gt0.
  rewrite /xerf normrM normfV (gtr0_norm q0).
  have -> : 1 + `|p| / (1 - `|p|) = (1 - `|p|)^-1 by field; rewrite gt_eqF.
  by rewrite invrK mulfVK // gt_eqF.
- by rewrite /xerfinv eqxx.
Qed.
End Erf.
