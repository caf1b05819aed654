(** Concrete cases meeting the hypotheses of the theorems of LinExProps*. *)
Set Warnings "-notation-overridden,-ambiguous-paths".
From mathcomp Require Import all_ssreflect all_algebra.
From mathcomp.algebra_tactics Require Import ring.
From Coq Require Import String.
From Verif Require Import Py Nd Spec LinAlg Dmx DmxProofs LgpModel LgpTheory LgpProofs
  FunctionalProofs LinProps LinProps2 LinProps3 WmeModel WmeProps WmeProps2 WmeExamples UtilModel2
  UtilProps3 LinExModel LinExProps LinExProps2 LinExProps4 LinExProps5 LinExProps6 LinExProps7
  LinExProps8 LinExProps9.
Set Implicit Arguments. Unset Strict Implicit. Unset Printing Implicit Defensive.
Import Order.Theory GRing.Theory Num.Theory.
Local Open Scope ring_scope.

Section LinExExamples.
Variable R : rcfType.

(** A generator whose state counts the calls: normal draws 2, 0, 0, 1, 0, 0, ..., uniform draws
    1/2; seeds are the natural numbers. *)
Definition pat (i : nat) : R := nth 0 [:: 2%:R; 0; 0; 1] i.
Definition xrandn (n g : nat) : seq R * nat := (mkseq pat n, g.+1).
Definition xrand (n g : nat) : seq R * nat := (nseq n (2%:R^-1), g.+1).
Definition xseed (s : int) : res nat := if s is Posz _ then Ok 0%N else Err ValueError.
(** The decomposition of the 2 x 2 matrix with those entries. *)
Definition xsvd m n (A : 'M[R]_(m, n)) : svd_out R m n :=
  Svd 1%:M (mkseq (fun i => nth 0 [:: 2%:R; 1] i) (minn m n)) 1%:M.

Lemma xrand_size n g : size (xrand n g).1 = n. Proof. exact: size_nseq. Qed.
Lemma xrand_unit n g x : x \in (xrand n g).1 -> 0 <= x < 1.
Proof.
by move/nseqP => [-> _]; rewrite invr_ge0 ler0n /= invf_lt1 ?ltr0n // ltr1n.
Qed.
Lemma xsvd_size m n (A : 'M[R]_(m, n)) : size (sv_s (xsvd A)) = minn m n.
Proof. exact: size_mkseq. Qed.

(** C103-C106: a seeded 2 x 2 problem. *)
Example ex_rlp : is_ok (random_linear_problem xseed xrandn xrand 2 3 None None (Some (7 : int)) 0%N).2.
Proof.
have [g' [p [A [b [lam [C [e _ _ _ _]]]]]]] := @C103_generates R nat xseed xrandn xrand xrand_size xrand_unit
  2 3 None None (Some (7 : int)) 0%N 0%N 0 erefl erefl (fun c h => match h with end).
by rewrite e.
Qed.

Example ex_rhd : is_ok (run_high_dim_linear xseed xrandn xrand xsvd 2 2 None 0%N).2.
Proof.
by have [-> _] := @C105_square_only R nat xseed xrandn xrand xsvd xrand_size xrand_unit xsvd_size 2 2 None 0%N 0%N erefl.
Qed.

(** The decomposition hypothesis and the nonzero reference of C106 in that run. *)
Example ex_svd : let A := mat_of 2 2 (xrandn 4 0%N).1 in is_svd A (xsvd A) /\ mat_of 2 1 (xrandn 2 2%N).1 != 0.
Proof.
split; last first.
  by apply/eqP => /matrixP /(_ 0 0) /eqP; rewrite !mxE /= pnatr_eq0.
have eA : mat_of 2 2 (xrandn 4 0).1 = diag_of 2 2 [:: 2%:R; 1].
  by apply/matrixP => [[[|[|//]] hi] [[|[|//]] hj]]; rewrite !mxE.
split; rewrite /= ?mul1mx ?mulmx1 ?trmx1 //.
by rewrite ler1n ler0n ler01.
Qed.

(** C107: one row, two data: 3 + 3 * 2 and 3 + 3 * 0; two rows and an array of deviations. *)
Definition xM : dmx R := dbuild 1 2 (fun i j => 1).
Example ex_noisy :
  (noisy_linear_data xrandn xM (nd1 [:: 1; 2%:R]) (SVal 3%:R) (Some 2%N) 0%N).2 = Ok [:: 9%:R; 3%:R].
Proof.
have [y -> [sy hy]] := @C107_data R nat xrandn xM (nd1 [:: 1; 2%:R]) (SVal 3%:R) (Some 2%N) 0%N
  (fun=> 3%:R) isT erefl erefl (or_introl erefl) (fun=> erefl).
congr Ok; apply: (@eq_from_nth _ 0) => // i; rewrite sy => hi.
rewrite (hy i hi) /pred_at big_ord_recl big_ord1 /= !dget_build // !mul1r.
by case: i hi => [|[|//]] _ /=; rewrite /pat /= ?mulr0 ?addr0 -?natrM -?(natrD _ 1 2) -?natrD.
Qed.

Example ex_noisy_array : is_ok (noisy_linear_data xrandn (ex_op R 2) (nd1 [:: 1; 2%:R])
  (SArr (nd1 [:: 1; 2%:R])) None 0%N).2.
Proof. by have [-> _] := @C107_accepts R nat xrandn (ex_op R 2) (nd1 [:: 1; 2%:R])
  (SArr (nd1 [:: 1; 2%:R])) None 0%N isT erefl isT. Qed.

(** C108: two quantities observed three and one times through one row each; two quantities with
    two rows and three observations are rejected. *)
Example ex_wme_problem : let run rep ns := (random_linear_wme_problem xrandn xrand (nd1 [:: 1; 2%:R])
   (WSeq [:: SVal 1; SVal 2%:R]) 2 (OSeq ns) "normal" rep 0%N).2 in
  is_ok (run true [:: 3; 1]%N) /\ run false [:: 3; 2]%N = Err ValueError.
Proof.
have h rep ns : size ns = 2%N -> _ := fun e => @C108_generates R nat xrandn xrand (nd1 [:: 1; 2%:R])
  [:: SVal 1; SVal 2%:R] 2 (OSeq ns) "normal" rep 0%N (fun k _ => if k == 0%N then 1 else 2%:R)
  isT isT erefl erefl e _.
have fl ns k : (k < 2)%N -> flat_std (nth (SVal 0) [:: SVal 1; SVal 2%:R] k) (nth 0%N ns k)
    (fun=> if k == 0%N then 1 else 2%:R) by case: k => [|[|]].
split.
  by have [Ms [ys [-> _ _ _]]] := h (@fl R) true [:: 3; 1]%N erefl.
exact: (h (@fl R) false [:: 3; 2]%N erefl).
Qed.

(** C109, C110: the coordinates of a two-dimensional parameter, observed two and three times.
    The MUD point is the pair of means. *)
Definition unit_op (k : nat) : dmx R := dbuild 1 2 (fun _ j => if j == k then 1 else 0).
Definition xops := [:: unit_op 0; unit_op 1].
Definition xdata : seq (seq R) := [:: [:: 1; 3%:R]; [:: 2%:R; 4%:R; 6%:R]].
Definition xmore : seq (seq R) := [:: [:: 1; 3%:R; 2%:R]; [:: 2%:R; 4%:R; 6%:R]].

Lemma xops1 i : (i < size xops)%N -> dr (nth (dzeros 0 0) xops i) = 1%N.
Proof. by case: i => [|[|]]. Qed.

Lemma ex_lwme_init datas mean : datas = xdata \/ datas = xmore ->
  exists p, lwme_init xops datas (LNum 1) None mean None None None = Ok p.
Proof.
move=> h; have := C28_lwme_default_y datas (LNum 1) mean None None None (ops_pos xops1).
have : is_ok (transform_linear_setup xops datas (LNum 1)).
  rewrite (C28_succeeds_iff _ _ (ops_pos xops1)).
  by case: h => ->; rewrite /nqoi /= !C27_accepts_iff /= !one_ok.
case: (transform_linear_setup _ _ _) => [[A b]|//] _.
by case: (lwme_init _ _ _ _ _ _ _ _) => // p _; exists p.
Qed.

Lemma predict_unit k (x : 'cV[R]_2) : (k < 2)%N -> predict (unit_op k) (coords x) 0 = coords x k.
Proof.
move=> hk; rewrite /predict /= big_ord_recl big_ord1 !dget_build //=.
by case: k hk => [|[|]] //= _; rewrite ?mul1r ?mul0r ?addr0 ?add0r.
Qed.

Example ex_C109 : exists p (x : 'cV[R]_2), [/\ lwme_init xops xdata (LNum 1) None None None None None = Ok p,
   answer p "mud" x, x 0 0 = 2%:R & x 1 0 = 4%:R].
Proof.
have [p ip] := ex_lwme_init None (or_introl erefl); exists p.
have m1 : data_mean (nth [::] xdata 0) = 2%:R.
  by rewrite /data_mean big_ord_recl big_ord1 /=; field.
have m2 : data_mean (nth [::] xdata 1) = 4%:R.
  by rewrite /data_mean !big_ord_recl big_ord0 /=; field.
have [||x ax hx] := C109_predicts_means (ops_pos xops1) ip (mu := 0 : 'cV[R]_2) (C := 1%:M) erefl erefl
   erefl (posdef1 _ _) ltr01.
- by case=> [|[|]].
- exists (\col_i if i == 0 then 2%:R else 4%:R).
  case=> [|[|]] // _; rewrite /= predict_unit // ?m1 ?m2.
    by rewrite -[0%N]/(nat_of_ord (0 : 'I_2)) coordsE mxE.
  by rewrite -[1%N]/(nat_of_ord (1 : 'I_2)) coordsE mxE.
exists x; split=> //.
  by have := hx 0%N isT; rewrite /= predict_unit // m1 -[0%N]/(nat_of_ord (0 : 'I_2)) coordsE.
by have := hx 1%N isT; rewrite /= predict_unit // m2 -[1%N]/(nat_of_ord (1 : 'I_2)) coordsE.
Qed.

Lemma xrow_free : row_free (stacked_rows xops 2 2).
Proof.
have -> : stacked_rows xops 2 2 = 1%:M; last by rewrite row_free_unit unitmx1.
apply/matrixP => [[[|[|//]] hi] [[|[|//]] hj]]; by rewrite !mxE /= dget_build.
Qed.

Example ex_C110 : exists p p' (U U' : 'M[R]_2),
  [/\ lgp_updated_cov p None None None = Ok (Dmx U), lgp_updated_cov p' None None None = Ok (Dmx U') &
      [/\ psd (U - U'), lwme_init xops xdata (LNum 1) None None None None None = Ok p &
          lwme_init xops xmore (LNum 1) None None None None None = Ok p']].
Proof.
have [p ip] := ex_lwme_init None (or_introl erefl).
have [p' ip'] := ex_lwme_init None (or_intror erefl).
have [U [U' [e e' h]]] := @C110_more_data R xops (LNum 1) (fun=> 1) xops1 xdata xmore 2 None None None None
  None p p' 0 0 1%:M ip ip' erefl erefl erefl erefl erefl
  (fun i => match i with 0 => fun _ => conj erefl isT | S (S _) => fun h => False_ind _ (notF h) | _ => fun _ => conj erefl isT end)
  xrow_free (posdef1 _ _).
by exists p, p', U, U'.
Qed.

(** C111 with the rational parametrisation of the circle. *)
Example ex_C111 t : (2%:R * t / (1 + t ^+ 2)) ^+ 2 + ((1 - t ^+ 2) / (1 + t ^+ 2)) ^+ 2 = 1 :> R.
Proof.
have h : 1 + t ^+ 2 != 0 by rewrite gt_eqF // ltr_spaddl ?ltr01 ?sqr_ge0.
by field.
Qed.

(** C112: a generator of uniform numbers whose first two rows are (1/2, 0) and (0, 1/2). *)
Definition xrand2 (n g : nat) : seq R * nat :=
  (mkseq (fun i => if i == (if g == 2%N then 0%N else 1%N) then 2%:R^-1 else 0) n, g.+1).
Lemma xrand2_size n g : size (xrand2 n g).1 = n. Proof. exact: size_mkseq. Qed.
Lemma xrand2_unit n g x : x \in (xrand2 n g).1 -> 0 <= x < 1.
Proof.
case/(nthP 0) => i; rewrite size_mkseq => hi <-; rewrite nth_mkseq //; case: ifP => _; last by rewrite lexx ltr01.
by rewrite invr_ge0 ler0n /= invf_lt1 ?ltr0n // ltr1n.
Qed.

Example ex_C112 : exists g' p (U U' M : 'M[R]_2),
  [/\ run_wme_covariance xseed xrandn xrand2 2 2 1 [:: 1; 3]%N None 0%N = (g', Ok (p, [:: Dmx U; Dmx U'])),
      M *m U *m M^T = 1%:M, M *m U' *m M^T = (3%:R^-1)%:M & psd (U - U')].
Proof.
have [|g' [p [Us [C [e sU _ _ h]]]]] := @C112_covariances R nat xseed xrandn xrand2 xrand2_size xrand2_unit
  2 2 1 [:: 1; 3]%N None 0%N 0%N erefl isT isT isT.
  by rewrite invf_lt1 ?exprn_gt0 ?ltr0n // exprn_egt1 // ltr1n.
set M := (X in row_free X) in h.
have fM : row_free M.
  apply/row_freeP; exists (2%:R)%:M; apply/matrixP => [[[|[|//]] hi] [[|[|//]] hj]];
  by rewrite !mxE !big_ord_recl big_ord0 !mxE /= ?mulr1n ?mulr0n; field.
have [hU hm _] := h.
have [U [e0 _ _ /(_ fM) h0]] := hU 0%N isT; have [U' [e1 _ _ /(_ fM) h1]] := hU 1%N isT.
have [V [V' [f0 f1 hp]]] := hm 0%N 1%N isT isT isT.
exists g', p, V, V', M; split=> //.
- rewrite e; congr (_, Ok (_, _)); case: Us sU f0 f1 {e hU hm h e0 e1} => [|a [|b []]] //= _ -> ->.
  by [].
- have -> : V = U by apply: Dmx_inj; rewrite -e0 -f0.
  by rewrite h0 /= expr1n divr1.
have -> : V' = U' by apply: Dmx_inj; rewrite -e1 -f1.
by rewrite h1 /= expr1n mul1r.
Qed.
End LinExExamples.
