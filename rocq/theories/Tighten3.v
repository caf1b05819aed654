(** Theorems added after automated mutation of the model: parts of C50, C52, C60, C107 and C108. *)
Set Warnings "-notation-overridden,-ambiguous-paths".
From Coq Require Import String ZArith.
From mathcomp Require Import all_ssreflect all_algebra.
From Verif Require Import Py Nd Dmx DmxProofs Xnum LinAlg UtilModel DensityModel NdProofs UtilModel2 UtilProps2 StModel StProps StProps3 LinExModel LinExProps6.
Set Implicit Arguments. Unset Strict Implicit. Unset Printing Implicit Defensive.
Import Order.Theory GRing.Theory Num.Theory.
Local Open Scope ring_scope.

(** ** C60: one true value, or one column of data *)
Section Closest.
Variable R : rcfType.
Notation nd := (nd R).
(** The squared distance used when the number of true values is not the width of the data: one true
    value is compared with every entry of the row; one entry with every true value. *)
Definition sqdist_spread (d : nd) (w : nat) (v : seq R) (i : nat) : R :=
  if w == 1%N then \sum_(y <- v) (ent d i 0 - y) ^+ 2 else \sum_(j < w) (ent d i j - head 0 v) ^+ 2.

Theorem C60_closest_spread (s : st R) n w p (d lam a : nd) :
  s_data s = Some d -> s_lam s = Some lam -> s_tv s = Some (NArr a) ->
  nd_wf d -> Nd.shape d = [:: n.+1; w] -> nd_wf lam -> Nd.shape lam = [:: n.+1; p] ->
  size (data a) <> w -> size (data a) = 1%N \/ w = 1%N ->
  exists i, [/\ (i < n.+1)%N,
    get_closest_to_true_vals s = Ok (row_of lam p i),
    forall i', (i' < n.+1)%N -> sqdist_spread d w (data a) i <= sqdist_spread d w (data a) i' &
    forall i', (i' < i)%N -> sqdist_spread d w (data a) i < sqdist_spread d w (data a) i'].
Proof.
move=> ed el et wd hd wl hl sa h1; rewrite /get_closest_to_true_vals ed el et; cbn [of_opt rbind].
have d1 : dim d 1 = w by rewrite /dim hd.
have hb : [|| size (data a) == w, size (data a) == 1%N | w == 1%N] by case: h1 => ->; rewrite eqxx ?orbT.
rewrite /dists_bcast d1 hb; cbn [rbind].
set ds := [seq norm2 (sub_bcast r (data a)) | r <- rows d].
have dsE : ds = [seq Num.sqrt (sqdist_spread d w (data a) i) | i <- iota 0 n.+1].
  rewrite /ds (rows_of wd hd) -map_comp; apply/eq_map => i /=; congr Num.sqrt.
  have sr : size (row_of d w i) = w by rewrite size_map size_iota.
  rewrite /sub_bcast sr eq_sym (introF eqP sa) /sqdist_spread.
  case: (w =P 1%N) => [w1|w1].
    rewrite ifF; last by apply/eqP; rewrite -w1.
    by rewrite big_map w1.
  case: h1 => // ->; rewrite eqxx big_map /row_of big_map.
  by rewrite -{1}[w]subn0 big_mkord.
have sds : size ds = n.+1 by rewrite dsE size_map size_iota.
have := argminP ds; rewrite sds => -[i [hi -> k1 k2]]; cbn [rbind].
have nds j : (j < n.+1)%N -> nth 0 ds j = Num.sqrt (sqdist_spread d w (data a) j).
  by move=> hj; rewrite dsE (nth_map 0%N) ?size_iota // nth_iota.
have ge0 j : 0 <= sqdist_spread d w (data a) j.
  by rewrite /sqdist_spread; case: ifP => _; apply: sumr_ge0 => y _; apply: sqr_ge0.
exists i; split=> //.
- rewrite /lam_row {1}/dim hl /= hi (rows_of wl hl) (nth_map 0%N) ?size_iota //.
  by rewrite -[iota _ _]/(iota 0 n.+1) nth_iota.
- move=> j hj; have := k1 j hj.
  by rewrite !nds // le_sqrt.
- by move=> j hj; have := k2 j hj; have hj' := ltn_trans hj hi; rewrite !nds // !ltNge le_sqrt.
Qed.
End Closest.

(** ** C50: bounds that are not a table with two columns *)
Theorem C50_not_2d (R : realFieldType) (B : nd R) r : (ndim B < 2)%N \/ (ndim B = 2%N /\ dim B 1 < 2)%N ->
  fit_domain_inplace id B r = (B, Err IndexError).
Proof.
by move=> h; rewrite /fit_domain_inplace /fit_domain_bounds; case: h => [->|[-> ->]]; rewrite ?orbT.
Qed.

(** ** C52: the exception for a two-dimensional signal *)
Theorem C52_2d_error (R : realFieldType) (G : Type) (reseed : int -> res G) (randn : nat -> G -> seq R * G)
  (size_randn : forall n g, size (randn n g).1 = n) m n (d : seq R) sd seed g g1 : size d = (m * n)%N ->
  (if seed is Some k then reseed k else Ok g) = Ok g1 -> m != 1%N -> n != 1%N -> n != 0%N ->
  add_noise reseed randn (Nd [:: m; n] d) sd seed g = ((randn (m * n)%N g1).2, Err ValueError).
Proof.
move=> sd' e m1 n1 n0; rewrite /UtilModel2.add_noise e /= sd'; have := size_randn (m * n)%N g1.
case: (randn (m * n)%N g1) => z g2 /= sz; rewrite /add_last /= size_map sz (negbTE n1).
have -> : (n == m * n)%N = false.
  by apply/negbTE; rewrite -{1}[n]mul1n eqn_mul2r negb_or n0 eq_sym.
by rewrite muln_eq1 (negbTE m1).
Qed.

(** ** C107, C108 *)
Section Noisy.
Variable R : rcfType.
Variables (G : Type) (reseed : int -> res G) (randn rand : nat -> G -> seq R * G).
(** C107: the one table of deviations that is accepted, 1 x 1 for one data point. *)
Theorem C107_one_by_one (M : dmx R) (ref : nd R) x num_data g :
  ndim ref != 0%N -> size (data ref) = dim ref 0 -> dc M = dim ref 0 -> dr M = 1%N -> odflt (dr M) num_data = 1%N ->
  noisy_linear_data randn M ref (SArr (Nd [:: 1; 1]%N [:: x])) num_data g =
  ((randn 1 g).2, Ok [:: pred_at M ref 0 + x * nth 0 (randn 1 g).1 0]).
Proof.
move=> r0 sr eM rM en; rewrite /noisy_linear_data en r0 eM rM !eqxx; cbn [rbind guard orb].
cbn [std_array data size]; rewrite eqxx; cbn [rbind guard].
rewrite /noisy /np_diag /=.
case Er: (dmul M (dcol (data ref))) => [r|e]; last first.
  by move: Er; case: dmulP => //= h _; case: h; rewrite sr.
have [_ r1 r2] := dmul_okE Er; cbn [rbind]; case: (randn 1 g) => z g' /=; congr pair.
case Ed: (dmul _ _) => [w|e]; last by move: Ed; case: dmulP => //= h _; case: h.
have [_ w1 w2] := dmul_okE Ed; cbn [rbind] in *; rewrite /= in r1 r2 w1 w2.
rewrite /dadd /dbop r1 r2 w1 w2 rM !bdim_same; cbn [rbind]; rewrite /dravel /= dget_build //.
rewrite !/(bidx 1 0) /= (dget_mul Er) ?rM //= (dget_mul Ed) //= big_ord1 !dget_build //=.
suff -> : \sum_(k < dc M) dget M 0 k * dget (dcol (data ref)) k 0 = pred_at M ref 0 by [].
by rewrite /pred_at; apply: eq_bigr => j _; rewrite dget_build ?sr ?eM // -eM.
Qed.
(** C108: numbers of observations for other than num_qoi quantities: AssertionError; a reference point that
    is a number: TypeError.  Nothing is drawn. *)
Theorem C108_bad_arguments (ref : nd R) std q obs dist repeated g :
  (forall l n, std = WSeq l -> obs = OSeq n -> size l = q -> size n <> q ->
     random_linear_wme_problem randn rand ref std q obs dist repeated g = (g, Err AssertionError)) /\
  (forall l, std = WSeq l -> size l <> q ->
     random_linear_wme_problem randn rand ref std q obs dist repeated g = (g, Err AssertionError)) /\
  (forall l n, std = WSeq l -> obs = ONum n -> size l = q -> ndim ref = 0%N ->
     random_linear_wme_problem randn rand ref std q obs dist repeated g = (g, Err TypeError)).
Proof.
rewrite /random_linear_wme_problem; split; [|split].
- by move=> l n -> -> el /eqP/negbTE en; rewrite /wme_std /wme_obs el eqxx en.
- by move=> l -> /eqP/negbTE el; rewrite /wme_std el.
- by move=> l n -> -> el r0; rewrite /wme_std /wme_obs el eqxx; cbn [rbind guard]; rewrite size_nseq el eqxx r0.
Qed.
End Noisy.

(** Cases that meet the hypotheses. *)
Section Examples.
Variable R : rcfType.
Example C60_closest_spread_met : let d := Nd [:: 2; 1]%N [:: 5%:R; 1] : nd R in let a := Nd [:: 2; 1]%N [:: 0; 2%:R] in
  [/\ nd_wf d, nd_wf a & size (data a) <> 1%N] /\ sqdist_spread d 1 (data a) 1 = 2%:R.
Proof.
split=> //; rewrite /sqdist_spread /= !big_cons big_nil /ent /= subr0 expr1n.
by rewrite -[1 - 2%:R]opprB -[2%:R]/(1 + 1 : R) addrK sqrrN expr1n addr0.
Qed.
Example C107_one_by_one_met g :
  noisy_linear_data (fun n (g : nat) => (nseq n (3%:R : R), g)) (dbuild 1 1 (fun _ _ => 2%:R)) (nd1 [:: 4%:R]) (SArr (Nd [:: 1; 1]%N [:: 5%:R])) None g =
  (g, Ok [:: 2%:R * 4%:R + 5%:R * 3%:R]).
Proof.
rewrite C107_one_by_one //=; congr (_, Ok [:: _ + _]).
by rewrite /pred_at /= big_ord1 dget_build.
Qed.
Example C52_2d_error_met (sd : R) : add_noise (fun q => Ok (absz q)) (fun n g => (nseq n 1, g)) (Nd [:: 2; 2]%N [:: 1; 2%:R; 3%:R; 4%:R]) sd None 7%N = (7%N, Err ValueError).
Proof. by rewrite (@C52_2d_error R nat _ (fun n g => (nseq n 1, g)) (fun n _ => size_nseq n 1) 2 2 _ sd None 7%N 7%N). Qed.
End Examples.
