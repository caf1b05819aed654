(** Properties C25-C30: the weighted mean error map. *)
Set Warnings "-notation-overridden,-ambiguous-paths".
From mathcomp Require Import all_ssreflect all_algebra perm.
From mathcomp.algebra_tactics Require Import ring.
From Coq Require Import String.
From Verif Require Import Py Nd Spec LinAlg Dmx DmxProofs LgpModel FunctionalProofs LinProps WmeModel.
Set Implicit Arguments. Unset Strict Implicit. Unset Printing Implicit Defensive.
Import Order.Theory GRing.Theory Num.Theory.
Local Open Scope ring_scope.

Section WmeProps.
Variable R : rcfType.

(** The weighted mean error of predictions [q], data [d], deviations [s]. *)
Definition wme_spec N (q d s : 'I_N -> R) : R :=
  (Num.sqrt N%:R)^-1 * \sum_i (q i - d i) / s i.

(** The deviation of observation [i], and the prediction of observation [i] at the
    parameters [x] (a one-row operator predicts every observation). *)
Definition std_of (std : stdarg R) (i : nat) : R :=
  match std with SNum s => s | SSeq l => nth 0 l i end.
Definition predict (op : dmx R) (x : nat -> R) (i : nat) : R :=
  \sum_(j < dc op) dget op (if dr op == 1%N then 0%N else i) j * x j.

Lemma dget_drow (s : seq R) j : (j < size s)%N -> dget (drow s) 0 j = nth 0 s j.
Proof.
move=> hj; rewrite -[0%N]/(nat_of_ord (ord0 : 'I_1)) -[j in LHS]/(nat_of_ord (Ordinal hj)).
by rewrite /drow /dbuild dgetE mxE.
Qed.

Lemma dget_scale c (a : dmx R) i j : dget (dscale c a) i j = c * dget a i j.
Proof.
rewrite /dget /=; case: insub => [i'|]; last by rewrite mulr0.
by case: insub => [j'|]; rewrite ?mulr0 // mxE.
Qed.

Lemma sqrtn2 N : (sqrtn R N)^-1 * N%:R = sqrtn R N.
Proof.
rewrite /sqrtn; case: N => [|N]; first by rewrite mulr0 sqrtr0.
have e : (N.+1%:R : R) = Num.sqrt N.+1%:R * Num.sqrt N.+1%:R.
  by rewrite -expr2 sqr_sqrtr // ler0n.
rewrite {2}e mulrA mulVf ?mul1r // sqrtr_eq0 -ltNge ltr0n //.
Qed.

Lemma wme_bE (data : seq R) std x :
  x + wme_b data std
  = x - (sqrtn R (size data))^-1 * \sum_(i < size data) (nth 0 data i / std i).
Proof. by rewrite /wme_b mulNr. Qed.

(** The affine map returned is the weighted mean error, for every parameter. *)
Theorem C25_transformed_map_is_wme (op : dmx R) (data : seq R) std row b :
  (0 < dr op)%N -> transform_linear_map op data std = Ok (row, b) ->
  dr (rowval2 row) = 1%N /\ dc (rowval2 row) = dc op /\
  forall x : nat -> R,
    \sum_(j < dc op) dget (rowval2 row) 0 j * x j + b
    = @wme_spec (size data) (predict op x) (fun i => nth 0 data i) (std_of std).
Proof.
move=> op0; rewrite /transform_linear_map; case: ltnP => [op1|ople].
  rewrite /guard; case: eqP => //= e1; case: eqP => //= e2; case: ifP => //= _ [<- <-].
  set s := (match std with SNum r => nseq _ r | SSeq s => s end) in e2 *.
  have sE i : (i < size data)%N -> nth 0 s i = std_of std i.
    by rewrite /s; case: (std) => //= r hi; rewrite nth_nseq hi.
  split=> //=; split; first by rewrite size_map size_iota.
  move=> x; rewrite wme_bE /wme_spec -/(sqrtn R _).
  have -> : \sum_(j < dc op) dget (drow (wme_A op (size data) (nth 0 s))) 0 j * x j
    = (sqrtn R (size data))^-1 * \sum_(i < size data) predict op x i / nth 0 s i.
    rewrite mulr_sumr.
    transitivity (\sum_(j < dc op) \sum_(i < size data)
        ((nth 0 s i * sqrtn R (size data))^-1 * dget op i j * x j)).
      apply: eq_bigr => j _; rewrite dget_drow ?size_map ?size_iota //.
      by rewrite (nth_map 0%N) ?size_iota // nth_iota // add0n mulr_suml e1.
    rewrite exchange_big; apply: eq_bigr => i _.
    rewrite /predict (gtn_eqF op1) mulr_suml mulr_sumr; apply: eq_bigr => j _.
    rewrite invfM; move: (_^-1) (_^-1) (dget op i j) (x j) => u v w z.
    by ring.
  rewrite -mulrBr -sumrB; congr (_ * _); apply: eq_bigr => i _.
  by rewrite sE // mulrBl.
have d1 : dr op = 1%N by apply/eqP; rewrite eqn_leq ople op0.
case: std => [s|//]; rewrite /guard; case: ifP => //= s0 [<- <-].
split; [by []|split; [by []|]] => x; rewrite wme_bE /wme_spec -/(sqrtn R _).
have -> : \sum_(j < dc op) dget (dscale (sqrtn R (size data) / s) op) 0 j * x j
  = sqrtn R (size data) / s * predict op x 0.
  rewrite /predict d1 eqxx mulr_sumr; apply: eq_bigr => j _.
  by rewrite dget_scale mulrA.
rewrite -{1}sqrtn2.
have -> : \sum_(i < size data) (predict op x i - nth 0 data i) / std_of (SNum s) i
  = (size data)%:R * predict op x 0 / s - \sum_(i < size data) nth 0 data i / s.
  rewrite /= -!mulr_suml -mulrBl; congr (_ / _); rewrite sumrB; congr (_ - _).
  rewrite (eq_bigr (fun=> predict op x 0)); last by move=> i _; rewrite /predict d1.
  by rewrite sumr_const card_ord mulr_natl.
rewrite mulrBr; congr (_ - _).
by move: (_%:R) (_^-1) (_^-1) (predict _ _ _) => u v w z; ring.
Qed.

(** [wme] on an n x N array of predictions and a flat list of N data. *)
Lemma wmeE n N (p v : nd R) (P : 'M[R]_(n, N)) (d : 'cV[R]_N) sd :
  holds2 p P -> shape v = [:: N] -> holds1 v d ->
  wme p v sd = Ok [seq wme_spec (P i) (d^~ 0)
                         (fun=> if sd is Some s then s else np_std (data v))
                  | i <- enum 'I_n].
Proof.
move=> [sp hp] sv [sz hv]; rewrite /wme /ndim /dim sp /=.
rewrite sv /=.
have ep : dmx_of p = Dmx P by rewrite /dmx_of /dim sp /=; apply: dbuildE => i j; rewrite hp.
have ev : as_row_or_2d v = Dmx d^T.
  rewrite /as_row_or_2d /ndim sv /= /drow sz; apply: dbuildE => i j.
  by rewrite hv mxE (ord1 i).
rewrite ep ev dsub_row; cbn [rbind dr dc].
rewrite sp /= eqxx; congr Ok.
rewrite -val_enum_ord -map_comp; apply: eq_map => i /=.
rewrite /wme_spec -/(sqrtn R N) mulr_sumr; apply: eq_bigr => j _.
by rewrite dgetE mxE invfM [in LHS]mulrC mulrA [in RHS]mulrC.
Qed.

Theorem C25_agrees_with_wme (op : dmx R) (dat : seq R) s row b (x : nat -> R) :
  (0 < dr op)%N -> transform_linear_map op dat (SNum s) = Ok (row, b) ->
  wme (Nd [:: 1; size dat]%N [seq predict op x i | i <- iota 0 (size dat)]) (nd1 dat) (Some s)
  = Ok [:: \sum_(j < dc op) dget (rowval2 row) 0 j * x j + b].
Proof.
move=> op0 h; have [_ [_ ->]] := C25_transformed_map_is_wme op0 h.
pose P : 'M[R]_(1, size dat) := \matrix_(i, j) predict op x j.
pose d : 'cV[R]_(size dat) := \col_i nth 0 dat i.
rewrite (@wmeE _ _ _ _ P d) //; last by split=> // i; rewrite mxE.
  rewrite enum_ordSl enum_ord0 /=; congr (Ok [:: _ * _]).
  by apply: eq_bigr => i _; rewrite !mxE.
split=> // i j; rewrite (ord1 i) mul0n add0n /= mxE (nth_map 0%N) ?size_iota //.
by rewrite nth_iota.
Qed.

(** ** C27: which standard deviations are accepted *)
Theorem C27_accepts_iff (op : dmx R) (dat : seq R) std :
  is_ok (transform_linear_map op dat std) =
  if (1 < dr op)%N then
    [&& dr op == size dat, (if std is SSeq s then size s == size dat else true)
      & (if std is SSeq s then all (fun x => 2%:R^-1 < `|x| * 10%:R ^+ 14) s
         else 2%:R^-1 < `|std_of std 0| * 10%:R ^+ 14)]
  else if std is SNum s then (10%:R ^+ 14)^-1 < s else false.
Proof.
rewrite /transform_linear_map /guard; case: ifP => [h1|_]; last first.
  by case: std => [s|s] //; case: ifP.
case: eqP => //= e1.
case: std => [s|s] /=.
  rewrite size_nseq eqxx /= -all_predC all_nseq -e1.
  case: (dr op) h1 => //= k _; rewrite /rounds_to_zero -ltNge.
  by case: ifP.
case: eqP => //= e2; rewrite -all_predC (eq_all (a2 := fun x => 2%:R^-1 < `|x| * 10%:R ^+ 14)).
  by case: ifP.
by move=> x; rewrite /= /rounds_to_zero -ltNge.
Qed.

Lemma tiny_gt0 : 0 < (10%:R ^+ 14)^-1 :> R.
Proof. by rewrite invr_gt0 exprn_gt0 // ltr0n. Qed.

Lemma big_enough (s : R) : (10%:R ^+ 14)^-1 < s -> 2%:R^-1 < `|s| * 10%:R ^+ 14.
Proof.
have t0 : 0 < 10%:R ^+ 14 :> R by rewrite exprn_gt0 // ltr0n.
move=> h; apply: (@lt_trans _ _ 1); first by rewrite invf_lt1 ?ltr0n // ltr1n.
rewrite -(@ltr_pdivr_mulr _ _ _ _ t0) mul1r; apply: lt_le_trans h _.
exact: ler_norm.
Qed.

(** Repeated observations are rejected for a deviation that is not > 1e-14, and zero
    deviations are always rejected ... *)
Theorem C27_zero_rejected (op : dmx R) dat std :
  (if std is SSeq s then 0 \in s else std_of std 0 = 0) ->
  is_ok (transform_linear_map op dat std) = false.
Proof.
move=> h; rewrite C27_accepts_iff; case: ifP => _; last first.
  by case: std h => [s /= ->|//]; rewrite ltNge (ltW tiny_gt0).
case: eqP => //= _; case: std h => [s /= ->|s s0] /=.
  by rewrite normr0 mul0r ltNge invr_ge0 ler0n.
case: eqP => //= _; apply/negbTE/allPn; exists 0 => //.
by rewrite normr0 mul0r -leNgt invr_ge0 ler0n.
Qed.

(** ... but with several operator rows, a negative deviation is accepted, against the
    message of the assertion. *)
Theorem C27_negative_accepted_refuted : exists (op : dmx R) dat s,
  s < 0 /\ is_ok (transform_linear_map op dat (SNum s)).
Proof.
exists (dzeros 2 1), [:: 0; 0], (-1); split; first by rewrite ltrN10.
rewrite C27_accepts_iff /= normrN1 mul1r.
have := @big_enough 1; rewrite normr1 mul1r; apply.
by rewrite invf_lt1 ?exprn_gt0 ?ltr0n // exprn_egt1 // ltr1n.
Qed.

(** ** C26 *)
Definition stacked (N : nat) (op : dmx R) : dmx R := dbuild N (dc op) (fun _ j => dget op 0 j).

Theorem C26_repeated_observations (op : dmx R) (dat : seq R) (s : R) :
  dr op = 1%N -> (1 < size dat)%N -> (10%:R ^+ 14)^-1 < s ->
  exists r1 r2 b,
  [/\ transform_linear_map op dat (SNum s) = Ok (r1, b),
      transform_linear_map (stacked (size dat) op) dat (SNum s) = Ok (r2, b)
    & rowval2 r1 = rowval2 r2].
Proof.
move=> d1 N1 hs.
have := C27_accepts_iff op dat (SNum s); rewrite d1 /= hs.
case E1: (transform_linear_map op _ _) => [[r1 b1]|] // _.
have := C27_accepts_iff (stacked (size dat) op) dat (SNum s).
rewrite /= N1 eqxx (big_enough hs).
case E2: (transform_linear_map (stacked _ _) _ _) => [[r2 b2]|] // _.
move: E1 E2; rewrite /transform_linear_map d1 /= N1 /guard hs eqxx size_nseq eqxx /=.
rewrite -all_predC all_nseq /= /rounds_to_zero -ltNge (big_enough hs) orbT /=.
move=> [<- <-] [<- <-].
do 3 eexists; split; first by [].
  congr (Ok (_, _)); rewrite /wme_b; congr (_ * _); apply: eq_bigr => i _.
  by rewrite nth_nseq ltn_ord.
rewrite /=; apply: dmx_ext => //=; first by rewrite size_map size_iota.
move=> i j; rewrite d1 => i1 hj; have -> : i = 0%N by case: i i1.
rewrite dget_scale dget_drow ?size_map ?size_iota // (nth_map 0%N) ?size_iota //.
rewrite nth_iota // add0n (eq_bigr (fun=> (s * sqrtn R (size dat))^-1 * dget op 0 j)).
  rewrite sumr_const card_ord -mulr_natl mulrA; congr (_ * _).
  by rewrite invfM -[in LHS]sqrtn2 -mulrA [in RHS]mulrCA mulrC mulrCA mulrA.
by move=> k _; rewrite nth_nseq ltn_ord /stacked dget_build.
Qed.
End WmeProps.
