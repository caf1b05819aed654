(** Properties C116-C120: the one-dimensional examples. *)
Set Warnings "-notation-overridden,-ambiguous-paths".
From mathcomp Require Import all_ssreflect all_algebra.
From mathcomp.algebra_tactics Require Import ring.
From Verif Require Import Py Nd Xnum XnumProofs UtilModel DensityModel NdProofs BayesModel BayesProps BayesProps2 SimpleModel.
Set Implicit Arguments. Unset Strict Implicit. Unset Printing Implicit Defensive.
Import Order.Theory GRing.Theory Num.Theory.
Local Open Scope ring_scope.

Section SimpleProps.
Variable R : rcfType.
Notation xnum := (xnum R).
Notation nd := (nd R).
Variable expf : R -> R.
Variable cpi : R.
Variable K : Type.
Variable kde : nd -> unit -> seq xnum -> res K.
Variable kde_pdf : K -> nd -> res (seq xnum).
Variables trunc ln : R -> R.

(** ** Specification *)
(** k is the index of the first of the entries of xs that are closest to m, among those with P. *)
Definition first_closest_in (P : pred R) (xs qs : seq R) (m : R) (k : nat) : Prop :=
  [/\ (k < size xs)%N, P (nth 0 xs k),
      forall i, (i < size xs)%N -> P (nth 0 xs i) -> `|nth 0 qs k - m| <= `|nth 0 qs i - m|
    & forall i, (i < k)%N -> P (nth 0 xs i) -> `|nth 0 qs k - m| < `|nth 0 qs i - m|].
Definition first_closest (xs : seq R) (m : R) (k : nat) : Prop :=
  [/\ (k < size xs)%N,
      forall i, (i < size xs)%N -> `|nth 0 xs k - m| <= `|nth 0 xs i - m|
    & forall i, (i < k)%N -> `|nth 0 xs k - m| < `|nth 0 xs i - m|].
(** The arithmetic mean. *)
Definition mean (s : seq R) : R := (\sum_(x <- s) x) / (size s)%:R.

(** ** C116 *)
Notation poly := (@polynomial_1D_data R).

Theorem C116_errors p ns ds draws mu sigma N z :
  is_ok (poly p ns ds draws mu sigma N z) = [&& ds == 2%N, 0 <= ns & 0 <= N] /\
  (is_ok (poly p ns ds draws mu sigma N z) = false -> poly p ns ds draws mu sigma N z = Err ValueError).
Proof.
rewrite /polynomial_1D_data; case: (ds == 2%N); cbn [guard rbind]; last by [].
case: ns => [n|n] //; cbn [rbind]; case: eqP => [->|_] //=; by case: N.
Qed.

(** What it returns. *)
Theorem C116_data p ns ds draws mu sigma N z lam q data_ :
  poly p ns ds draws mu sigma N z = Ok (lam, q, data_) ->
  exists xs : seq R, [/\ Posz (size xs) = ns,
    lam = Nd [:: size xs; 1%N] xs /\ q = Nd [:: size xs; 1%N] [seq x ^+ p | x <- xs],
    forall i, (i < size xs)%N -> nth 0 xs i = draws i,
    Posz (size data_) = N &
    (N = 1 -> data_ = [:: mu]) /\
    (N <> 1 -> forall j, (j < size data_)%N -> nth 0 data_ j = mu + sigma ^+ 2 * z j)].
Proof.
rewrite /polynomial_1D_data; case: (ds == 2%N); cbn [guard rbind]; last by [].
case: ns => [n|n] //; cbn [rbind]; case: eqP => [->|hN] //.
  cbn [rbind] => -[<- <- <-]; exists (mkseq draws n); rewrite size_mkseq; split=> //.
  by move=> i hi; rewrite nth_mkseq.
case: N hN => [N|//] hN; cbn [rbind] => -[<- <- <-]; exists (mkseq draws n).
rewrite !size_mkseq; split=> // [i hi|]; first by rewrite nth_mkseq.
by split=> // _ j hj; rewrite nth_mkseq.
Qed.

(** The scale of the data is the square of sigma: their mean and their (population) variance are
    those of the standard normal draws, moved by mu and scaled by sigma^2 and sigma^4. *)
Definition variance (s : seq R) : R := mean [seq (x - mean s) ^+ 2 | x <- s].

Lemma mean_affine (f : R -> R) a b (s : seq R) : (forall x, f x = a + b * x) -> s != [::] ->
  mean [seq f x | x <- s] = a + b * mean s.
Proof.
move=> hf s0; rewrite /mean size_map big_map (eq_bigr _ (fun x _ => hf x)) big_split /= -mulr_sumr.
rewrite big_const_seq count_predT iter_addr_0 -[a *+ _]mulr_natr.
have n0 : (size s)%:R != 0 :> R by rewrite pnatr_eq0 size_eq0.
by rewrite mulrDl mulfK // mulrA.
Qed.

Theorem C116_spread p ns ds draws mu sigma N z lam q data_ :
  poly p ns ds draws mu sigma N z = Ok (lam, q, data_) -> N <> 1 -> N <> 0 ->
  let zs := mkseq z (size data_) in
  mean data_ = mu + sigma ^+ 2 * mean zs /\ variance data_ = sigma ^+ 4 * variance zs.
Proof.
move=> h n1 n0 zs; have [xs [_ _ _ sd [_ /(_ n1) hd]]] := C116_data h.
have ed : data_ = [seq mu + sigma ^+ 2 * x | x <- zs].
  apply: (@eq_from_nth _ 0); first by rewrite size_map size_mkseq.
  by move=> j hj; rewrite hd // (nth_map 0) ?size_mkseq // nth_mkseq.
have zn : zs != [::].
  rewrite -size_eq0 size_mkseq; apply/eqP => e; by case: n0; rewrite -sd e.
have em : mean data_ = mu + sigma ^+ 2 * mean zs by rewrite {1}ed (mean_affine (a := mu) (b := sigma ^+ 2)).
split=> //; rewrite /variance em {1}ed -map_comp.
rewrite (eq_map (f2 := fun x => 0 + sigma ^+ 4 * (x - mean zs) ^+ 2)); last by move=> x /=; ring.
rewrite (map_comp (fun y => 0 + sigma ^+ 4 * y) (fun x => (x - mean zs) ^+ 2)).
rewrite (mean_affine (a := 0) (b := sigma ^+ 4)) ?add0r //.
by case: (zs) zn.
Qed.

(** ** Densities on one column *)
Notation spdf := (@spdf R expf cpi K kde_pdf).
Notation npdf := (@npdf R expf cpi).
Notation sdist := (sdist R K).

Lemma rows_col n (xs : seq R) : size xs = n -> rows (Nd [:: n; 1%N] xs) = [seq [:: x] | x <- xs].
Proof.
move=> <-; rewrite /rows /dim /=; by elim: xs => [//|x xs ih] /=; rewrite take0 drop0 ih.
Qed.

Lemma xmul1r (x : xnum) : xmul x (Fin 1) = x.
Proof. by case: x => [a| | |] //=; rewrite ?mulr1 // /xinf ?ltr01 // oppr_gt0 ltr10 oppr_lt0 ltr01. Qed.

Lemma pdf_col (f : R -> xnum) n (xs : seq R) : size xs = n ->
  pdf_cols [:: f] (Nd [:: n; 1%N] xs) = Ok (P2 [seq [:: f x] | x <- xs]).
Proof.
by move=> sz; rewrite /pdf_cols /= (rows_col sz) -map_comp; congr (Ok (P2 _)); apply: eq_map.
Qed.

Lemma prod_col (f : R -> xnum) (xs : seq R) :
  prod_axis1 (P2 [seq [:: f x] | x <- xs]) = Ok [seq f x | x <- xs].
Proof.
rewrite /prod_axis1 -map_comp; congr Ok; apply: eq_map => x; exact: xmul1r.
Qed.
Lemma pravel_col (f : R -> xnum) (xs : seq R) : pravel (P2 [seq [:: f x] | x <- xs]) = [seq f x | x <- xs].
Proof. by rewrite /pravel; elim: xs => //= x xs ->. Qed.

(** The density of a distribution with scalar arguments. *)
Definition density1 (d : sdist) : option (R -> xnum) :=
  match d with
  | Uni [:: l] [:: s] => Some (updf l s)
  | Nor [:: m] s => Some (npdf m s)
  | Other f => Some f
  | _ => None
  end.
Lemma spdf_col d f n xs : density1 d = Some f -> size xs = n ->
  spdf d (Nd [:: n; 1%N] xs) = Ok (P2 [seq [:: f x] | x <- xs]).
Proof.
case: d => [[|l [|]] // [|s [|]] //|[|m [|]] // s|g|//] [<-] sz; exact: (pdf_col _ sz).
Qed.

(** ** C117 *)
(** The density of the initial distribution, and the values it draws ("uniform" on the domain
    scales draws from [0, 1)). *)
Definition init_density (init : option (R -> xnum)) (dom : seq R) : R -> xnum :=
  if init is Some f then f else updf (nth 0 dom 0) (nth 0 dom 1 - nth 0 dom 0).
Definition init_draws (init : option (R -> xnum)) (dom : seq R) (draws : nat -> R) (j : nat) : R :=
  if init is Some f then draws j else nth 0 dom 0 + (nth 0 dom 1 - nth 0 dom 0) * draws j.
Notation col xs := (Nd [:: size xs; 1%N] xs).

Notation density_prob := (@identity_1D_density_prob R expf cpi K kde kde_pdf trunc).
Notation mud := (@sd_mud R expf cpi K kde kde_pdf).

Lemma shape_dom (dom : seq R) : set_shape [:: Some 1%N; None] (nd1 dom) = Ok (Nd [:: 1%N; size dom] dom).
Proof. by rewrite /set_shape /= /np_reshape /= dvd1n /fill /= divn1. Qed.

Lemma init_col D (xs qs : seq R) dom dint w nrm pad P : size qs = size xs ->
  density_init D trunc (col xs) (Nd [:: size xs; 1%N] qs) false (Some (nd1 dom)) dint w nrm pad = Ok P ->
  exists ws, [/\ size ws = size xs, w = None -> ws = nseq (size xs) (Fin 1) &
    P = DP (col xs) (Nd [:: size xs; 1%N] qs) (Nd [:: 1%N; size dom] dom) dint ws
           None None None None None None None None].
Proof.
move=> sq; rewrite /density_init.
have s2 sh a b (v : seq R) : set_shape sh (Nd [:: a; b] v) = Ok (Nd [:: a; b] v) by [].
rewrite !s2; cbn [rbind]; rewrite shape_dom; cbn [rbind dim Nd.shape nth].
rewrite eqxx; cbn [guard rbind fst snd].
rewrite /set_weights; case: w => [w|]; last first.
  by cbn [rbind dX dim Nd.shape nth] => -[<-]; exists (nseq (size xs) (Fin 1)); rewrite size_nseq.
case: (ndim w == 0%N) => //; rewrite /n_samples; cbn [dy dim Nd.shape nth].
set w2 := (if ndim w == 1%N then _ else _); case: ifP => // /negbFE /eqP hw; cbn [rbind] => -[<-].
eexists; split; last (rewrite /put_weights; reflexivity); last by [].
by case: nrm; rewrite size_map size_map size_iota -hw.
Qed.

Lemma dens_state ns no mu sigma w init nrm dom dint ap draws z D :
  density_prob ns no mu sigma w init nrm dom dint ap draws z = Ok D ->
  exists d xs data_ ws, let f := init_density init dom in
  [/\ density1 d = Some f,
      poly 1 ns 2 (init_draws init dom draws) mu sigma no z = Ok (col xs, col xs, data_),
      (init = None -> (2 <= size dom)%N /\ 0 <= nth 0 dom 1 - nth 0 dom 0),
      size ws = size xs /\ (w = None -> ws = nseq (size xs) (Fin 1)) &
      D = DP (col xs) (col xs) (Nd [:: 1%N; size dom] dom) dint ws None None (Some [seq f x | x <- xs])
             (if ap then Some [seq f x | x <- xs] else None)
             (Some [seq npdf (np_mean1 data_) sigma x | x <- xs])
             (Some d) (if ap then Some d else None) (Some (Nor [:: np_mean1 data_] sigma))].
Proof.
rewrite /identity_1D_density_prob; set DD := (X in rbind X _).
case E : DD => [[d dr]|] //; cbn [rbind fst snd].
have [hd hdr hu] : [/\ density1 d = Some (init_density init dom),
    forall j, dr j = init_draws init dom draws j &
    (init = None -> (2 <= size dom)%N /\ 0 <= nth 0 dom 1 - nth 0 dom 0)].
  move: E; rewrite /DD /init_density /init_draws; case: (init) => [f|]; first by case=> <- <-.
  by case: (boolP (1 < size dom)%N) => // h1; cbn [guard rbind]; case: (boolP (0 <= _)) => // h2; cbn [guard rbind] => -[<- <-].
have -> : poly 1 ns 2 dr mu sigma no z = poly 1 ns 2 (init_draws init dom draws) mu sigma no z.
  by rewrite /polynomial_1D_data eqxx; case: (ns) => // n; cbn [guard rbind]; rewrite (eq_mkseq hdr).
case P : (poly _ _ _ _ _ _ _ _) => [[[lam q] data_]|] //; cbn [rbind fst snd].
have [xs [sn [el eq] hx sd _]] := C116_data P.
have qx : [seq x ^+ 1 | x <- xs] = xs by rewrite -[RHS]map_id; apply: eq_map => x; rewrite expr1.
rewrite el eq qx; rewrite el eq qx in P.
case I : (density_init _ _ _ _ _ _ _ _ _ _) => [P0|] //; cbn [rbind].
have [ws [sw hw ->]] := init_col (erefl _) I.
rewrite /after /sd_initial /set_initial; cbn [rbind dX dy ddom d_int d_w d_r d_up d_in d_pr d_ob d_in_dist d_pr_dist d_ob_dist].
rewrite /sd_pdf (spdf_col hd (erefl _)); cbn [rbind]; rewrite prod_col; cbn [rbind fst snd].
rewrite /sd_observed /set_observed; cbn [odflt oapp rbind dX dy ddom d_int d_w d_r d_up d_in d_pr d_ob d_in_dist d_pr_dist d_ob_dist].
rewrite /sd_pdf (@spdf_col _ (npdf (np_mean1 data_) sigma) _ _ _ (erefl _)) //; cbn [rbind]; rewrite prod_col; cbn [rbind fst snd].
move=> h; exists d, xs, data_, ws; split=> //.
case: ap h; last by case=> <-.
rewrite /sd_predicted /set_predicted; cbn [pa_w sbind]; rewrite /predicted_values; cbn [pa_dist pa_kw dy].
rewrite /sd_pdf (spdf_col hd (erefl _)); cbn [rbind]; rewrite pravel_col; cbn [rbind fst snd].
by case=> <-.
Qed.

(** [w] is the finite, positive number [a]. *)
Definition pos_fin (v : xnum) : Prop := exists2 a, 0 < a & v = Fin a.

Lemma fit_state (xs : seq R) dom dint (ws ins obs : seq xnum) d d' d'' :
  size ws = size xs -> size ins = size xs -> size obs = size xs ->
  mud (DP (col xs) (col xs) dom dint ws None None (Some ins) (Some ins) (Some obs) d d' d'') =
  let rs := [seq xdiv p.1 p.2 | p <- zip obs ins] in
  let up := [seq xmul p.1 p.2 | p <- zip [seq xmul p.1 p.2 | p <- zip ins ws] rs] in
  (DP (col xs) (col xs) dom dint ws (Some rs) (Some up) (Some ins) (Some ins) (Some obs) d d' d'',
   m <- argmax up ;; Ok [:: nth 0 xs m]).
Proof.
move=> sw si so; rewrite /sd_mud /mud_point /ensure_up; cbn [d_up].
rewrite /fit /fill_defaults; cbn [d_in d_pr d_ob sbind odflt oapp d_w].
rewrite xvbop_same ?so // /lift; cbn [sbind put_r d_in d_w odflt oapp].
rewrite xvbop_same ?si //; cbn [rbind].
rewrite xvbop_same; last by rewrite !size_map !size_zip si sw so !minnn.
cbn [sbind put_up d_up dX odflt oapp]; congr pair.
set up := [seq _ | p <- _]; case A : (argmax up) => [m|] //; cbn [rbind].
have mlt : (m < size xs)%N.
  have su : size up = size xs by rewrite !size_map !size_zip !size_map !size_zip si sw so !minnn.
  by have := argmaxP A; case: ifP => _ [] h _ _; rewrite su in h.
by rewrite /row_at /dim /= mlt rows_col // (nth_map 0).
Qed.

(** The updated density: the weights times the observed density at the samples, whatever the
    initial distribution (that is, at samples where its density is positive). *)
Theorem C117_updated ns no mu sigma w init nrm dom dint draws z D :
  density_prob ns no mu sigma w init nrm dom dint true draws z = Ok D ->
  exists xs data_, poly 1 ns 2 (init_draws init dom draws) mu sigma no z = Ok (col xs, col xs, data_) /\
  ((forall x, x \in xs -> pos_fin (init_density init dom x)) -> 0 < sigma -> data_ != [::] ->
   exists up, d_up (mud D).1 = Some up /\ size up = size xs /\
   forall i c, (i < size xs)%N -> nth NaN (d_w D) i = Fin c ->
     nth NaN up i = Fin (c * (cpi * expf (- (((nth 0 xs i - mean data_) / sigma) ^+ 2 / 2%:R)) / sigma))).
Proof.
move=> /dens_state [d [xs [data_ [ws [hd hp _ [sw _] ->]]]]]; exists xs, data_; split=> // pos s0 dn.
rewrite fit_state ?size_map //=; cbv zeta; eexists; split; first by [].
split; first by rewrite !(size_map, size_zip) sw !minnn.
move=> i c hi hw.
rewrite nth_zipmap ?(nth_zipmap, size_map, size_zip, sw, minnn) // ?nth_zipmap ?size_map ?sw //.
rewrite !(nth_map 0) // hw.
have [a a0 ->] := pos _ (mem_nth 0 hi).
have -> : np_mean1 data_ = Fin (mean data_) by case: (data_) dn.
rewrite /npdf s0 /= (gt_eqF a0) /=; congr Fin.
by field; rewrite (gt_eqF a0) (gt_eqF s0).
Qed.

(** *** Normal densities *)
Hypothesis cpi_pos : 0 < cpi.
Hypothesis exp_pos : forall x, 0 < expf x.
Hypothesis exp_incr : forall x y, x < y -> expf x < expf y.
Hypothesis exp_add : forall x y, expf (x + y) = expf x * expf y.

Lemma exp_lt x y : (expf x < expf y) = (x < y).
Proof.
case: (ltrgtP x y) => [/exp_incr //|/exp_incr h|->]; last by rewrite ltxx.
by apply/negbTE; rewrite -leNgt ltW.
Qed.

Definition nval (m s x : R) : R := cpi * expf (- (((x - m) / s) ^+ 2 / 2%:R)) / s.

Lemma nval_pos m s x : 0 < s -> 0 < nval m s x.
Proof. by move=> s0; rewrite /nval divr_gt0 // mulr_gt0. Qed.

Lemma sq_lt (a b c : R) : 0 < c -> (c * a ^+ 2 < c * b ^+ 2) = (`|a| < `|b|).
Proof. by move=> c0; rewrite ltr_pmul2l // -(real_normK (num_real a)) -(real_normK (num_real b)) ltr_pexpn2r ?nnegrE. Qed.

Lemma nval_lt m s x y : 0 < s -> (nval m s x < nval m s y) = (`|y - m| < `|x - m|).
Proof.
move=> s0; rewrite /nval ltr_pmul2r ?invr_gt0 // ltr_pmul2l // exp_lt ltr_opp2.
have c0 : 0 < (s ^- 2 / 2%:R) by rewrite divr_gt0 ?invr_gt0 ?exprn_gt0 ?ltr0n.
rewrite -(sq_lt _ _ c0).
by congr (_ < _); rewrite expr_div_n mulrC [LHS]mulrC -mulrA [RHS]mulrC; congr (_ * _); rewrite mulrC.
Qed.

(** *** The first closest sample is where a density that falls with the distance is largest *)
Lemma argmax_closest (P : pred R) (xs qs : seq R) m (h : R -> R) (vals : seq xnum) :
  (forall q, 0 < h q) -> (forall q q', (h q < h q') = (`|q' - m| < `|q - m|)) ->
  size vals = size xs ->
  (forall i, (i < size xs)%N -> nth NaN vals i = Fin (if P (nth 0 xs i) then h (nth 0 qs i) else 0)) ->
  has P xs -> exists2 k, argmax vals = Ok k & first_closest_in P xs qs m k.
Proof.
move=> h0 hlt sv hv hP.
have hle q q' : (h q <= h q') = (`|q' - m| <= `|q - m|) by rewrite leNgt hlt -leNgt.
have n0 : (0 < size xs)%N by case: (xs) hP.
have : is_ok (argmax vals) by rewrite argmax_ok sv.
case A : (argmax vals) => [k|] // _; exists k => //.
have nn : has (@isnan R) vals = false.
  by apply/negbTE/negP => /(has_nthP NaN) [i]; rewrite sv => hi; rewrite hv.
have := argmaxP A; rewrite nn => -[kl kmax kfirst]; rewrite sv in kl kmax.
have Pk : P (nth 0 xs k).
  have [i hi Pi] := hasP hP; have /(nthP 0) [j hj ej] := hi; rewrite -ej in Pi.
  have := kmax j hj; rewrite !hv // Pi /=; case: ifP => // _.
  by rewrite leNgt h0.
split=> // i hi Pi.
  by have := kmax i hi; rewrite !hv // Pi Pk /= hle.
have il := ltn_trans hi kl.
by have := kfirst i hi; rewrite !hv // Pi Pk /= hlt.
Qed.

Lemma closest_predT xs m k : first_closest_in predT xs xs m k -> first_closest xs m k.
Proof. by case=> h1 _ h2 h3; split=> // i hi; [apply: h2 | apply: h3]. Qed.

Lemma pair2 A B (p : A * B) (b : B) : p.2 = b -> p = (p.1, b).
Proof. by case: p => a b' /= ->. Qed.

(** The MUD point, with the analytical predicted density and without weights: the first of the
    samples closest to the mean of the data. *)
Theorem C117_mud_point ns no mu sigma init nrm dom dint draws z D :
  density_prob ns no mu sigma None init nrm dom dint true draws z = Ok D ->
  exists xs data_, poly 1 ns 2 (init_draws init dom draws) mu sigma no z = Ok (col xs, col xs, data_) /\
  ((forall x, x \in xs -> pos_fin (init_density init dom x)) -> 0 < sigma -> data_ != [::] -> xs != [::] ->
   exists k, first_closest xs (mean data_) k /\ (mud D).2 = Ok [:: nth 0 xs k]).
Proof.
move=> hD; have [d [xs [data_ [ws [hd hp _ [sw /(_ erefl) ew] eD]]]]] := dens_state hD.
exists xs, data_; split=> // pos s0 dn xn.
have [xs' [data' [hp' /(_ _ s0)]]] := C117_updated hD.
have [e1 e2] : xs' = xs /\ data' = data_ by move: hp'; rewrite hp => -[-> ->].
rewrite e1 e2 => /(_ pos dn) [up [eu [su hup]]].
have [k ak ck] : exists2 k, argmax up = Ok k & first_closest_in predT xs xs (mean data_) k.
  apply: (@argmax_closest predT _ _ _ (nval (mean data_) sigma)) => //.
  - by move=> q; apply: nval_pos.
  - by move=> q q'; apply: nval_lt.
  - by move=> i hi; rewrite (hup i 1) ?mul1r // eD /= ew nth_nseq hi.
  - by case: (xs) xn.
exists k; split; first exact: closest_predT.
move: eu; rewrite eD fit_state ?size_map //; cbv zeta; cbn [fst d_up snd] => -[->].
by rewrite ak.
Qed.

(** For init_dist = "uniform" the samples are where the initial density is positive. *)
Theorem C117_uniform ns no mu sigma nrm dom dint draws z D :
  density_prob ns no mu sigma None None nrm dom dint true draws z = Ok D ->
  (forall j, 0 <= draws j < 1) -> nth 0 dom 0 < nth 0 dom 1 -> 0 < sigma -> 0 < ns -> 0 < no ->
  exists xs data_ k, [/\ poly 1 ns 2 (init_draws None dom draws) mu sigma no z = Ok (col xs, col xs, data_),
    forall x, x \in xs -> nth 0 dom 0 <= x < nth 0 dom 1,
    first_closest xs (mean data_) k & (mud D).2 = Ok [:: nth 0 xs k]].
Proof.
move=> hD hdr hdom s0 ns0 no0.
have [xs [data_ [hp h]]] := C117_mud_point hD; exists xs, data_.
have [xs' [sx [ex _] hx sdat _]] := C116_data hp.
have {}ex : xs' = xs by case: ex.
rewrite ex in sx hx.
have w0 : 0 < nth 0 dom 1 - nth 0 dom 0 by rewrite subr_gt0.
have inx x : x \in xs -> nth 0 dom 0 <= x < nth 0 dom 1.
  move=> /(nthP 0) [i hi <-]; rewrite hx // /init_draws.
  have /andP [d0 d1] := hdr i; apply/andP; split; first by rewrite ler_addl mulr_ge0 // ltW.
  by rewrite -ltr_subr_addl gtr_pmulr.
case: h => //.
- move=> x /inx /andP [h1 h2]; exists (1 / (nth 0 dom 1 - nth 0 dom 0)).
    by rewrite div1r invr_gt0.
  by rewrite /init_density /updf w0 h1 addrC subrK (ltW h2).
- by rewrite -size_eq0; apply/eqP => e; move: no0; rewrite -sdat e.
- by rewrite -size_eq0; apply/eqP => e; move: ns0; rewrite -sx e.
by move=> k [h1 h2]; exists k.
Qed.

Lemma argmax_nan0 (v : xnum) s : isnan v -> argmax (v :: s) = Ok 0%N.
Proof. by move=> /= ->. Qed.

(** Without a density to compare - a sigma that is not positive, no observation, or a uniform
    distribution on a single point - it is the first sample; without samples, ValueError. *)
Theorem C117_degenerate ns no mu sigma init nrm dom dint draws z D :
  density_prob ns no mu sigma None init nrm dom dint true draws z = Ok D ->
  exists xs data_, poly 1 ns 2 (init_draws init dom draws) mu sigma no z = Ok (col xs, col xs, data_) /\
  ([\/ sigma <= 0, data_ = [::] | init = None /\ nth 0 dom 0 = nth 0 dom 1] ->
   (mud D).2 = if xs is x :: _ then Ok [:: x] else Err ValueError).
Proof.
move=> hD; have [d [xs [data_ [ws [hd hp hu [sw /(_ erefl) ew] eD]]]]] := dens_state hD.
exists xs, data_; split=> // hc.
rewrite eD fit_state ?size_map // ew; cbv zeta; cbn [snd].
case: xs {hp sw ew eD} => [//|x xs]; cbn [map nseq zip fst snd size].
suff nx : isnan (xmul (xmul (init_density init dom x) (Fin 1))
     (xdiv (npdf (np_mean1 data_) sigma x) (init_density init dom x))) by rewrite argmax_nan0.
rewrite xmul1r; case: hc => [s0|->|[-> e]].
- have -> : npdf (np_mean1 data_) sigma x = NaN by rewrite /npdf ltNge s0 /=; case: (np_mean1 _).
  by case: (init_density _ _ _).
- by case: (init_density _ _ _).
- by rewrite /init_density /updf e subrr ltxx.
Qed.

(** When the problem is built (no weights). *)
Theorem C117_returns ns no mu sigma init nrm dom dint ap draws z :
  is_ok (density_prob ns no mu sigma None init nrm dom dint ap draws z) =
  [&& isSome init || (2 <= size dom)%N && (nth 0 dom 0 <= nth 0 dom 1), 0 <= ns & 0 <= no].
Proof.
rewrite /identity_1D_density_prob; set DD := (X in rbind X _).
have eDD : is_ok DD = isSome init || (2 <= size dom)%N && (nth 0 dom 0 <= nth 0 dom 1).
  rewrite /DD; case: (init) => [f|] //=; case: (1 < _)%N => //; cbn [guard rbind].
  by rewrite subr_ge0; case: (_ <= _).
rewrite -eDD; case E : DD => [[d dr]|] //; cbn [rbind is_ok andb].
have [f hd] : exists f, density1 d = Some f.
  move: E; rewrite /DD; case: (init) => [f|]; first by case=> <- _; exists f.
  case: (1 < _)%N => //; cbn [guard rbind]; case: (0 <= _) => //; cbn [guard rbind] => -[<- _].
  by eexists.
have [e0 _] := C116_errors 1 ns 2 dr mu sigma no z; rewrite eqxx in e0; rewrite -[RHS]e0; cbn [fst snd].
case P : (poly _ _ _ _ _ _ _ _) => [[[lam q] data_]|] //; cbn [rbind fst snd is_ok].
have [xs [_ [-> ->] _ _ _]] := C116_data P.
have -> : [seq x ^+ 1 | x <- xs] = xs by rewrite -[RHS]map_id; apply: eq_map => x; rewrite expr1.
have s2 sh a b (v : seq R) : set_shape sh (Nd [:: a; b] v) = Ok (Nd [:: a; b] v) by [].
rewrite /density_init !s2; cbn [rbind]; rewrite shape_dom; cbn [rbind dim Nd.shape nth].
rewrite eqxx; cbn [guard rbind fst snd set_weights].
rewrite /after /sd_initial /set_initial /put_weights; cbn [rbind dX dy ddom d_int d_w d_r d_up d_in d_pr d_ob d_in_dist d_pr_dist d_ob_dist].
rewrite /sd_pdf (spdf_col hd (erefl _)); cbn [rbind]; rewrite prod_col; cbn [rbind fst snd].
rewrite /sd_observed /set_observed; cbn [odflt oapp rbind dX dy ddom d_int d_w d_r d_up d_in d_pr d_ob d_in_dist d_pr_dist d_ob_dist].
rewrite /sd_pdf (@spdf_col _ (npdf (np_mean1 data_) sigma) _ _ _ (erefl _)) //; cbn [rbind]; rewrite prod_col; cbn [rbind fst snd].
case: ap => //.
rewrite /sd_predicted /set_predicted; cbn [pa_w sbind]; rewrite /predicted_values; cbn [pa_dist pa_kw dy].
by rewrite /sd_pdf (spdf_col hd (erefl _)).
Qed.

(** ** C118 *)
Notation bayes_prob := (@identity_1D_bayes_prob R expf cpi K kde_pdf trunc).
Notation map_pt := (@sb_map R expf cpi K kde_pdf ln).

(** The likelihood of one model output. *)
Definition lik (data_ : seq R) (sigma q : R) : R := \prod_(d <- data_) nval d sigma q.

Lemma lik_col (data_ : seq R) sigma n (qs : seq R) : size qs = n ->
  spdf (Nor [seq Fin x | x <- data_] sigma) (Nd [:: n; 1%N] qs) =
  Ok (P2 [seq [seq npdf (Fin d) sigma q | d <- data_] | q <- qs]).
Proof.
move=> sq; rewrite /spdf /pdf_cols /= /fits !size_map eqxx !orbT (rows_col sq) -map_comp.
congr (Ok (P2 _)); apply: eq_map => q /=; rewrite /spread /= !size_map.
rewrite -map_comp; apply: (@eq_from_nth _ NaN); first by rewrite !size_map size_iota.
move=> j; rewrite size_map size_iota => hj; rewrite (nth_map 0%N) ?size_iota // nth_iota // add0n.
have -> : (if size data_ == 1%N then 0%N else j) = j.
  by case: eqP => // e; move: hj; rewrite e ltnS leqn0 => /eqP ->.
by rewrite !(nth_map 0).
Qed.

Lemma xprod_fin (s : seq R) : xprod [seq Fin x | x <- s] = Fin (\prod_(x <- s) x) :> xnum.
Proof. by elim: s => [|x s ih] /=; rewrite ?big_nil // ih big_cons. Qed.

Lemma lik_val data_ sigma q : 0 < sigma ->
  xprod [seq npdf (Fin d) sigma q | d <- data_] = Fin (lik data_ sigma q).
Proof.
move=> s0; rewrite /lik -(big_map (fun d => nval d sigma q) xpredT id) -xprod_fin -map_comp.
by congr xprod; apply: eq_map => d; rewrite /npdf s0.
Qed.

Lemma lik_pos data_ sigma q : 0 < sigma -> 0 < lik data_ sigma q.
Proof. by move=> s0; apply: prodr_gt0 => d _; apply: nval_pos. Qed.

Lemma exp0 : expf 0 = 1.
Proof.
have /eqP := exp_add 0 0; rewrite addr0 -{1}[expf 0]mulr1 => /eqP /mulfI h; apply/esym/h.
by rewrite gt_eqF.
Qed.

Lemma exp_sum (s : seq R) (f : R -> R) : \prod_(x <- s) expf (f x) = expf (\sum_(x <- s) f x).
Proof. by elim: s => [|x s ih]; rewrite ?big_nil ?exp0 // !big_cons ih exp_add. Qed.

(** Sums of squares around a point and around the mean. *)
Lemma sumsq (s : seq R) (q : R) : s != [::] ->
  \sum_(d <- s) (q - d) ^+ 2 = (size s)%:R * (q - mean s) ^+ 2 + \sum_(d <- s) (d - mean s) ^+ 2.
Proof.
move=> s0; have n0 : (size s)%:R != 0 :> R by rewrite pnatr_eq0 size_eq0.
have e d : (q - d) ^+ 2 = ((q - mean s) ^+ 2 + (d - mean s) ^+ 2) + (- 2%:R * (q - mean s)) * (d - mean s).
  by ring.
rewrite (eq_bigr _ (fun d _ => e d)) big_split /= -mulr_sumr.
have -> : \sum_(d <- s) (d - mean s) = 0.
  rewrite sumrB big_const_seq count_predT iter_addr_0 -[mean s *+ _]mulr_natr /mean divfK // subrr //.
rewrite mulr0 addr0 big_split /=; congr (_ + _).
by rewrite big_const_seq count_predT iter_addr_0 -[_ *+ size s]mulr_natr mulrC.
Qed.

Lemma lik_lt data_ sigma q q' : 0 < sigma -> data_ != [::] ->
  (lik data_ sigma q < lik data_ sigma q') = (`|q' - mean data_| < `|q - mean data_|).
Proof.
move=> s0 dn.
have n0 : 0 < (size data_)%:R :> R by rewrite ltr0n lt0n size_eq0.
pose c := (size data_)%:R * (sigma ^- 2 / 2%:R).
have c0 : 0 < c by rewrite mulr_gt0 // divr_gt0 ?invr_gt0 ?exprn_gt0 ?ltr0n.
pose A := \prod_(d <- data_) (cpi / sigma) * expf (- (\sum_(d <- data_) (d - mean data_) ^+ 2 * (sigma ^- 2 / 2%:R))).
have A0 : 0 < A by rewrite mulr_gt0 // prodr_gt0 // => d _; rewrite divr_gt0.
have e p : lik data_ sigma p = A * expf (- (c * (p - mean data_) ^+ 2)).
  rewrite /lik /A -mulrA -exp_add -opprD.
  rewrite (eq_bigr (fun d => cpi / sigma * expf (- ((p - d) ^+ 2 * (sigma ^- 2 / 2%:R))))); last first.
    by move=> d _; rewrite /nval expr_div_n -[_ * _ / 2%:R]mulrA mulrAC.
  rewrite big_split /= exp_sum; congr (_ * expf _).
  rewrite sumrN; congr (- _); rewrite -mulr_suml sumsq // mulrDl addrC mulr_suml; congr (_ + _).
  by rewrite /c mulrAC.
by rewrite !e ltr_pmul2l // exp_lt ltr_opp2 sq_lt.
Qed.

(** The value lies between two of the numbers in r (for r = [a, b]: between a and b). *)
Definition between (r : seq R) (x : R) : bool := has (fun a => a <= x) r && has (fun b => x <= b) r.
(** All numbers in r are the same. *)
Definition single (r : seq R) : bool := all (fun a => a == head 0 r) r.

Lemma betweenE r x : r != [::] -> between r x = (np_min r <= x) && (x <= np_max r).
Proof.
move=> r0; have rs : (0 < size r)%N by rewrite lt0n size_eq0.
congr (_ && _); apply/hasP/idP => [[a ha]|h].
- exact: le_trans (np_min_le ha).
- by exists (np_min r) => //; apply: np_min_in.
- by move=> h; apply: le_trans h (np_max_ge ha).
- by exists (np_max r) => //; apply: np_max_in.
Qed.
Lemma singleE r : r != [::] -> single r = ~~ (0 < np_max r - np_min r).
Proof.
move=> r0; have rs : (0 < size r)%N by rewrite lt0n size_eq0.
have hr : head 0 r \in r by case: (r) r0 => // a l _; rewrite /= mem_head.
rewrite subr_gt0 -leNgt; apply/idP/idP => [/allP h|h].
  by rewrite (eqP (h _ (np_min_in rs))) (eqP (h _ (np_max_in rs))).
apply/allP => a ha; rewrite eq_le.
rewrite (le_trans (np_max_ge ha)) ?(le_trans h) ?np_min_le //=.
by rewrite (le_trans (np_max_ge hr)) ?(le_trans h) ?np_min_le.
Qed.

Definition ready (xs qs r data_ : seq R) (sigma : R) (B : bprob R sdist) : Prop :=
  [/\ bX B = Nd [:: size xs; 1%N] xs, bdom B = Nd [:: 1%N; size r] r, b_ps B = None /\ b_pr B = None,
      b_ll B = Some [seq xprod [seq npdf (Fin d) sigma q | d <- data_] | q <- qs] & b_log B = false].

Lemma ready_map xs qs r data_ sigma B : size qs = size xs -> r != [::] -> ready xs qs r data_ sigma B ->
  let ps := [seq xmul (updf (np_min r) (np_max r - np_min r) p.1) (xprod [seq npdf (Fin d) sigma p.2 | d <- data_])
             | p <- zip xs qs] in
  (map_pt B).2 = _ <- guard (~~ xzero (xsum ps)) ValueError ;; m <- argmax ps ;; Ok [:: nth 0 xs m].
Proof.
move=> sq r0 [eX eD [e1 e2] e3 e4] ps; rewrite /sb_map /map_point e1 /bfit e2 /set_prior /default_prior eD.
cbn [dim Nd.shape nth]; rewrite size_eq0 (negbTE r0).
have -> : rows (Nd [:: 1%N; size r] r) = [:: r] by rewrite /rows /dim /= take_size.
cbn [map zip fst snd rbind]; rewrite eX (@spdf_col (Uni [:: np_min r] [:: np_max r - np_min r]) _ _ _ (erefl _) (erefl _)); cbn [rbind].
rewrite prod_col; cbn [sbind b_ll b_pr b_log odflt oapp]; rewrite e3 e4 /combine.
rewrite xvbop_same; last by rewrite !size_map sq.
cbn [rbind bX].
have -> : [seq xmul p.1 p.2 | p <- zip [seq updf (np_min r) (np_max r - np_min r) x | x <- xs]
    [seq xprod [seq npdf (Fin d) sigma q | d <- data_] | q <- qs]] = ps.
  by rewrite /ps; elim: (xs) (qs) => [|x l ih] [|q l'] //=; rewrite ih.
have sp : size ps = size xs by rewrite size_map size_zip sq minnn.
rewrite sp /dim /= eqxx; cbn [guard rbind].
case: (~~ xzero _); cbn [guard rbind sbind b_ps bX snd]; last by [].
rewrite /lift; cbn [odflt oapp bX b_ps snd]; case A : (argmax ps) => [m|] //; cbn [rbind].
have mlt : (m < size xs)%N by have := argmaxP A; case: ifP => _ [] h _ _; rewrite sp in h.
by rewrite /row_at /dim /= mlt rows_col // (nth_map 0).
Qed.

Lemma nan_first (xs : seq R) (ps : seq xnum) : size ps = size xs -> xs != [::] -> all (@isnan R) ps ->
  (_ <- guard (~~ xzero (xsum ps)) ValueError ;; m <- argmax ps ;; Ok [:: nth 0 xs m]) = Ok [:: nth 0 xs 0].
Proof.
move=> sz xn h; have hs : xsum ps = NaN by case: ps sz h => [|[] // l] e //; case: (xs) xn e.
rewrite hs /=; case: ps sz h {hs} => [|v l] e /=; first by case: (xs) xn e.
by case/andP=> ->.
Qed.

Definition vanish (r : seq R) (x : R) (v : R) : R := if between r x then v else 0.

(** The MAP point for the normal likelihood and the uniform prior on r. *)
Lemma map_closest (xs qs r data_ : seq R) sigma B : size qs = size xs -> r != [::] -> xs != [::] ->
  ready xs qs r data_ sigma B ->
  [/\ single r -> (map_pt B).2 = Ok [:: nth 0 xs 0],
      sigma <= 0 -> data_ != [::] -> (map_pt B).2 = Ok [:: nth 0 xs 0],
      0 < sigma -> data_ != [::] -> ~~ single r -> has (between r) xs ->
        exists k, first_closest_in (between r) xs qs (mean data_) k /\ (map_pt B).2 = Ok [:: nth 0 xs k],
      data_ = [::] -> ~~ single r -> has (between r) xs ->
        (map_pt B).2 = Ok [:: nth 0 xs (find (between r) xs)]
    & 0 < sigma \/ data_ = [::] -> ~~ single r -> ~~ has (between r) xs -> (map_pt B).2 = Err ValueError].
Proof.
move=> sq r0 xn hB; have := ready_map sq r0 hB; cbv zeta.
set ps := [seq _ | p <- _] => ->.
have sp : size ps = size xs by rewrite size_map size_zip sq minnn.
have nps i : (i < size xs)%N -> nth NaN ps i =
   xmul (updf (np_min r) (np_max r - np_min r) (nth 0 xs i)) (xprod [seq npdf (Fin d) sigma (nth 0 qs i) | d <- data_]).
  by move=> hi; rewrite (nth_map (0, 0)) ?size_zip ?sq ?minnn // nth_zip.
have allnan : (forall i, (i < size xs)%N -> isnan (nth NaN ps i)) ->
    (_ <- guard (~~ xzero (xsum ps)) ValueError ;; m <- argmax ps ;; Ok [:: nth 0 xs m]) = Ok [:: nth 0 xs 0].
  move=> h; apply: nan_first => //; apply/(all_nthP NaN) => i; rewrite sp; exact: h.
pose w := 1 / (np_max r - np_min r).
have fin (h : R -> R) : ~~ single r ->
    (forall i, (i < size xs)%N -> xprod [seq npdf (Fin d) sigma (nth 0 qs i) | d <- data_] = Fin (h (nth 0 qs i))) ->
    forall i, (i < size xs)%N -> nth NaN ps i = Fin (if between r (nth 0 xs i) then w * h (nth 0 qs i) else 0).
  rewrite singleE // negbK => hw hl i hi; rewrite nps // hl // /updf hw betweenE //=.
  by rewrite [np_min r + _]addrC subrK; case: (_ && _); rewrite ?mul0r.
have ws : ~~ single r -> 0 < w by rewrite singleE // negbK => h; rewrite /w div1r invr_gt0.
have zero : (forall i, (i < size xs)%N -> nth NaN ps i = Fin 0) -> xzero (xsum ps).
  move=> h; have -> : ps = nseq (size xs) (Fin 0).
    by apply: (@eq_from_nth _ NaN); rewrite ?size_nseq // => i; rewrite sp => hi; rewrite h // nth_nseq hi.
  rewrite /xsum; elim: (size xs) => [|n ih] /=; rewrite ?eqxx //; move: ih.
  by case: (foldr _ _ _) => //= a /eqP ->; rewrite addr0 eqxx.
have nonzero h i : ~~ single r -> (forall q, 0 < h q) ->
    (forall i, (i < size xs)%N -> nth NaN ps i = Fin (if between r (nth 0 xs i) then w * h (nth 0 qs i) else 0)) ->
    (i < size xs)%N -> between r (nth 0 xs i) -> ~~ xzero (xsum ps).
  move=> sr h0 hv hi hb.
  have -> : ps = [seq Fin x | x <- mkseq (fun i => if between r (nth 0 xs i) then w * h (nth 0 qs i) else 0) (size xs)].
    apply: (@eq_from_nth _ NaN); first by rewrite sp !size_map size_iota.
    by move=> j; rewrite sp => hj; rewrite hv // (nth_map 0) ?size_mkseq // nth_mkseq.
  rewrite xsum_fin /xzero sum_ge0_eq0.
    apply/allPn; exists (w * h (nth 0 qs i)); last by rewrite gt_eqF // mulr_gt0 // ws.
    by apply/mapP; exists i; rewrite ?mem_iota ?hb.
  apply/allP => v /mapP [j _ ->]; case: ifP => _ //; by rewrite mulr_ge0 ?ltW // ws.
split.
- rewrite singleE // => /negbTE hw; apply: allnan => i hi; by rewrite nps // /updf hw.
- move=> s0 dn; apply: allnan => i hi; rewrite nps //.
  have -> : xprod [seq npdf (Fin d) sigma (nth 0 qs i) | d <- data_] = NaN; last by case: (updf _ _ _).
  by case: (data_) dn => // d l _ /=; rewrite /npdf ltNge s0.
- move=> s0 dn sr hb.
  have hv := fin (lik data_ sigma) sr (fun i hi => lik_val _ _ s0).
  have [k ak ck] : exists2 k, argmax ps = Ok k & first_closest_in (between r) xs qs (mean data_) k.
    apply: (@argmax_closest (between r) _ _ _ (fun q => w * lik data_ sigma q)) => //.
    + by move=> q; rewrite mulr_gt0 ?ws // lik_pos.
    + by move=> q q'; rewrite ltr_pmul2l ?ws // lik_lt.
  exists k; split=> //; have [kl Pk _ _] := ck.
  by rewrite (nonzero (lik data_ sigma) k) //; [rewrite ak | move=> q; apply: lik_pos].
- move=> dn sr hb.
  have hv : forall i, (i < size xs)%N -> nth NaN ps i = Fin (if between r (nth 0 xs i) then w * 1 else 0).
    by apply: (fin (fun=> 1)) => // i hi; rewrite dn.
  have kl : (find (between r) xs < size xs)%N by rewrite -has_find.
  have Pk := nth_find 0 hb.
  rewrite (nonzero (fun=> 1) (find (between r) xs)) //; cbn [guard rbind].
  rewrite (@argmax_max _ _ (find (between r) xs)) //; split; rewrite ?sp //.
    move=> i hi; rewrite !hv // Pk /=; case: ifP => // _; by rewrite mulr1 ltW // ws.
  move=> i hi; rewrite !hv ?(ltn_trans hi) // Pk (before_find 0 hi) /= mulr1; exact: ws.
- move=> hs sr /negbTE hb; rewrite zero //; move=> i hi.
  have [h hl] : exists h : R -> R, forall j, (j < size xs)%N ->
      xprod [seq npdf (Fin d) sigma (nth 0 qs j) | d <- data_] = Fin (h (nth 0 qs j)).
    case: hs => [s0|->]; last by exists (fun=> 1).
    by exists (lik data_ sigma) => j _; rewrite lik_val.
  rewrite (fin h) //; have -> // : between r (nth 0 xs i) = false.
  by apply/negbTE/negP => c; move/negP: (negbT hb); apply; apply/hasP; exists (nth 0 xs i) => //; apply: mem_nth.
Qed.

(** *** The object *)
(** The numbers the uniform prior is spread over: the given domain, or the range of the samples
    widened by a tenth on each side. *)
Definition prior_range (dom : option (seq R)) (xs : seq R) : seq R :=
  if dom is Some r then r else
  let pad := 10%:R^-1 * (np_max xs - np_min xs) in [:: np_min xs - pad; np_max xs + pad].

Lemma bayes_build (xs qs : seq R) dom data_ sigma : size qs = size xs ->
  (dom = None -> xs != [::]) ->
  exists B, [/\ (B0 <- bayes_init sdist trunc (col xs) (Nd [:: size xs; 1%N] qs) false (omap (@nd1 R) dom) ;;
       after (sb_likelihood expf cpi kde_pdf B0 (Nor [seq Fin x | x <- data_] sigma) false)) = Ok B,
       ready xs qs (prior_range dom xs) data_ sigma B & by_ B = Nd [:: size xs; 1%N] qs].
Proof.
move=> sq xn.
have s2 sh a b (v : seq R) : set_shape sh (Nd [:: a; b] v) = Ok (Nd [:: a; b] v) by [].
rewrite /bayes_init !s2; cbn [rbind].
set dm := (X in rbind (rbind X _) _).
have -> : dm = Ok (Nd [:: 1%N; size (prior_range dom xs)] (prior_range dom xs)).
  rewrite /dm; case: dom xn {dm} => [r|] xn; cbn [omap obind oapp].
    by rewrite shape_dom; cbn [rbind dim Nd.shape nth]; rewrite eqxx.
  have {}xn := xn erefl.
  rewrite /fit_domain /bounds_of; cbn [dim Nd.shape nth]; rewrite size_eq0 (negbTE xn); cbn [andb iota map].
  have -> : column (col xs) 0 = xs by rewrite /column rows_col // -map_comp map_id_in // => x _.
  cbn [rbind]; rewrite /fit_domain_bounds /nd2 /ndim /dim /=.
  by rewrite /rows /dim /=.
cbn [rbind]; rewrite /after /sb_likelihood /set_likelihood /lik_values; cbn [by_].
rewrite lik_col //; cbn [rbind]; rewrite /prod_axis1; cbn [rbind fst snd].
eexists; split; [by []| |by []].
by rewrite /ready /= -map_comp.
Qed.

Lemma range_all (xs : seq R) x : x \in xs -> between (prior_range None xs) x.
Proof.
move=> hx; have le : np_min xs <= np_max xs := le_trans (np_min_le hx) (np_max_ge hx).
have p0 : 0 <= 10%:R^-1 * (np_max xs - np_min xs) by rewrite mulr_ge0 ?invr_ge0 ?ler0n ?subr_ge0.
rewrite /between /=; apply/andP; split; apply/orP.
  by left; rewrite ler_subl_addr (le_trans (np_min_le hx)) // ler_addl.
by right; rewrite orbF (le_trans (np_max_ge hx)) // ler_addl.
Qed.

Lemma range_single (xs : seq R) : xs != [::] -> single (prior_range None xs) -> forall x, x \in xs -> x = nth 0 xs 0.
Proof.
move=> xn hs x hx.
have hx0 : nth 0 xs 0 \in xs by rewrite mem_nth // lt0n size_eq0.
have p0 y : y \in xs -> 0 <= 10%:R^-1 * (np_max xs - np_min xs).
  by move=> hy; rewrite mulr_ge0 ?invr_ge0 ?ler0n ?subr_ge0 ?(le_trans (np_min_le hy) (np_max_ge hy)).
move: hs; rewrite /single /= eqxx andbT /= => /eqP e.
have eq : np_max xs <= np_min xs.
  apply: (@le_trans _ _ (np_max xs + 10%:R^-1 * (np_max xs - np_min xs))); first by rewrite ler_addl (p0 x).
  by rewrite e ger_addl oppr_le0 (p0 x).
apply/eqP; rewrite eq_le.
rewrite (le_trans (np_max_ge hx)) ?(le_trans eq) ?np_min_le //=.
by rewrite (le_trans (np_max_ge hx0)) ?(le_trans eq) ?np_min_le.
Qed.

Lemma pow1 (xs : seq R) : [seq x ^+ 1 | x <- xs] = xs.
Proof. by rewrite -[RHS]map_id; apply: eq_map => x; rewrite expr1. Qed.

Lemma bayes_empty (qs : seq R) f :
  (B <- bayes_init sdist trunc (Nd [:: 0%N; 1%N] [::]) (Nd [:: 0%N; 1%N] qs) false None ;; f B) = Err ValueError :> res (bprob R sdist).
Proof. by []. Qed.

Lemma bayes_state ns no mu sigma dom draws z B : bayes_prob ns no mu sigma dom draws z = Ok B ->
  exists xs data_, [/\ poly 1 ns 2 draws mu sigma no z = Ok (col xs, col xs, data_),
    ready xs xs (prior_range dom xs) data_ sigma B & dom = None -> xs != [::]].
Proof.
rewrite /identity_1D_bayes_prob; case P : (poly _ _ _ _ _ _ _ _) => [[[lam q] data_]|] //; cbn [rbind fst snd].
have [xs [sn [el eq] hx sd _]] := C116_data P; rewrite el eq pow1 => hB; exists xs, data_.
case: (boolP ((dom == None) && (xs == [::]))) => [/andP [/eqP ed /eqP ex]|hn].
  by move: hB; rewrite ed ex.
have hn' : dom = None -> xs != [::] by move=> e; move: hn; rewrite e.
have [B' [eB hB' _]] := @bayes_build xs xs dom data_ sigma erefl hn'.
by move: hB; rewrite eB => -[<-].
Qed.

(** The problem is built for nonnegative numbers of samples and observations (at least one sample
    when the domain is taken from the samples). *)
Theorem C118_returns ns no mu sigma dom draws z :
  is_ok (bayes_prob ns no mu sigma dom draws z) = [&& 0 <= ns, isSome dom || (0 < ns) & 0 <= no].
Proof.
rewrite /identity_1D_bayes_prob.
have [e0 _] := C116_errors 1 ns 2 draws mu sigma no z; rewrite eqxx in e0.
rewrite [RHS](_ : _ = (isSome dom || (0 < ns)) && (true && (0 <= ns) && (0 <= no))); last first.
  by case: (0 <= ns); case: (0 <= no); rewrite ?andbT ?andbF.
rewrite -andbA -[X in _ && X]e0.
case P : (poly _ _ _ _ _ _ _ _) => [[[lam q] data_]|]; last by rewrite andbF.
cbn [rbind fst snd is_ok]; rewrite andbT.
have [xs [sn [-> ->] hx sd _]] := C116_data P; rewrite pow1.
have en : (0 < ns) = (xs != [::]) by rewrite -sn -size_eq0 -lt0n.
case: dom => [r|]; rewrite ?en.
  have hn : Some r = None -> xs != [::] by [].
  by have [B' [-> _ _]] := @bayes_build xs xs (Some r) data_ sigma erefl hn.
case: (eqVneq xs [::]) => [->|xn] //=.
by have [B' [-> _ _]] := @bayes_build xs xs None data_ sigma erefl (fun=> xn).
Qed.

(** The MAP point when no domain is given: the first of the samples closest to the mean. *)
Theorem C118_map_point ns no mu sigma draws z B :
  bayes_prob ns no mu sigma None draws z = Ok B ->
  exists xs data_, poly 1 ns 2 draws mu sigma no z = Ok (col xs, col xs, data_) /\
  (0 < sigma -> data_ != [::] ->
   exists k, first_closest xs (mean data_) k /\ (map_pt B).2 = Ok [:: nth 0 xs k]).
Proof.
move=> /bayes_state [xs [data_ [hp hB /(_ erefl) xn]]]; exists xs, data_; split=> // s0 dn.
have [h1 _ h3 _ _] := map_closest (erefl _) (isT : prior_range None xs != [::]) xn hB.
case: (boolP (single (prior_range None xs))) => [hs|hs].
  exists 0%N; split; last exact: h1.
  split=> //; first by rewrite lt0n size_eq0.
  by move=> i hi; rewrite (range_single xn hs (mem_nth 0 hi)).
have hh : has (between (prior_range None xs)) xs.
  by apply/hasP; exists (nth 0 xs 0); rewrite ?range_all // mem_nth // lt0n size_eq0.
have [k [[c1 c2 c3 c4] hm]] := h3 s0 dn hs hh; exists k; split=> //; split=> // i hi.
  by apply: c3 => //; apply: range_all; apply: mem_nth.
by apply: c4 => //; apply: range_all; apply: mem_nth; apply: ltn_trans c1.
Qed.

(** With a domain: the first of the samples in the domain closest to the mean; ValueError if no
    sample is in it; the first sample if it is a single point. *)
Theorem C118_domain ns no mu sigma r draws z B :
  bayes_prob ns no mu sigma (Some r) draws z = Ok B -> r != [::] -> 0 < ns ->
  exists xs data_, poly 1 ns 2 draws mu sigma no z = Ok (col xs, col xs, data_) /\
  (0 < sigma -> data_ != [::] ->
   if single r then (map_pt B).2 = Ok [:: nth 0 xs 0] else
   if has (between r) xs then
     exists k, first_closest_in (between r) xs xs (mean data_) k /\ (map_pt B).2 = Ok [:: nth 0 xs k]
   else (map_pt B).2 = Err ValueError).
Proof.
move=> /bayes_state [xs [data_ [hp hB _]]] r0 n0; exists xs, data_; split=> // s0 dn.
have xn : xs != [::].
  have [xs' [sn [ex _] _ _ _]] := C116_data hp; have {}ex : xs' = xs by case: ex.
  by rewrite -size_eq0 -lt0n -ex -ltz_nat sn.
have [h1 _ h3 _ h5] := map_closest (erefl _) r0 xn hB.
case: ifP => [hs|/negbT hs]; first exact: h1.
case: ifP => [hh|/negbT hh]; first exact: h3.
by apply: h5 => //; left.
Qed.

(** Without observations the likelihood is constant: the first sample in the domain; with a sigma
    that is not positive there is no likelihood: the first sample. *)
Theorem C118_degenerate ns no mu sigma dom draws z B :
  bayes_prob ns no mu sigma dom draws z = Ok B -> 0 < ns ->
  exists xs data_, poly 1 ns 2 draws mu sigma no z = Ok (col xs, col xs, data_) /\
  (data_ != [::] -> sigma <= 0 -> dom <> Some [::] -> (map_pt B).2 = Ok [:: nth 0 xs 0]) /\
  (data_ = [::] -> dom = None -> (map_pt B).2 = Ok [:: nth 0 xs 0]) /\
  (data_ = [::] -> forall r, dom = Some r -> r != [::] -> ~~ single r ->
     (map_pt B).2 = if has (between r) xs then Ok [:: nth 0 xs (find (between r) xs)] else Err ValueError).
Proof.
move=> /bayes_state [xs [data_ [hp hB _]]] n0; exists xs, data_; split=> //.
have xn : xs != [::].
  have [xs' [sn [ex _] _ _ _]] := C116_data hp; have {}ex : xs' = xs by case: ex.
  by rewrite -size_eq0 -lt0n -ex -ltz_nat sn.
split=> [dn s0 hd|]; last split=> dn.
- have r0 : prior_range dom xs != [::] by case: (dom) hd => // r h /=; apply/eqP => e; apply: h; rewrite e.
  by have [_ h2 _ _ _] := map_closest (erefl _) r0 xn hB; apply: h2.
- move=> ed; rewrite ed in hB.
  have [h1 _ _ h4 _] := map_closest (erefl _) (isT : prior_range None xs != [::]) xn hB.
  case: (boolP (single (prior_range None xs))) => [hs|hs]; first exact: h1.
  have a0 : between (prior_range None xs) (nth 0 xs 0) by rewrite range_all // mem_nth // lt0n size_eq0.
  rewrite h4 //; first by case: (xs) xn a0 => // x l _ /= ->.
  by apply/hasP; exists (nth 0 xs 0) => //; rewrite mem_nth // lt0n size_eq0.
- move=> r ed r0 sr; rewrite ed in hB.
  have [_ _ _ h4 h5] := map_closest (erefl _) r0 xn hB.
  by case: ifP => [hh|/negbT hh]; [apply: h4 | apply: h5 => //; right].
Qed.

(** ** C119 *)
Lemma first_closest_uniq xs m k k' : first_closest xs m k -> first_closest xs m k' -> k = k'.
Proof.
move=> [a1 a2 a3] [b1 b2 b3]; case: (ltngtP k k') => // lt.
  by have := b3 _ lt; rewrite ltNge a2.
by have := a3 _ lt; rewrite ltNge b2.
Qed.

(** From the same draws, the MUD point and the MAP point are the same sample. *)
Theorem C119_mud_is_map ns no mu sigma init nrm dom dint draws z D B :
  density_prob ns no mu sigma None init nrm dom dint true draws z = Ok D ->
  bayes_prob ns no mu sigma None (init_draws init dom draws) z = Ok B ->
  (forall j, pos_fin (init_density init dom (init_draws init dom draws j))) -> 0 < sigma -> 0 < no ->
  (mud D).2 = (map_pt B).2 /\ is_ok (mud D).2.
Proof.
move=> /C117_mud_point [xs [data_ [hp hD]]] hB0 pos s0 n0.
have [xs1 [data1 [hp1 _ /(_ erefl) xn]]] := bayes_state hB0.
have [xs2 [data2 [hp2 hB]]] := C118_map_point hB0.
have [e1 e2] : xs1 = xs /\ data1 = data_ by move: hp1; rewrite hp => -[-> ->].
have [e3 e4] : xs2 = xs /\ data2 = data_ by move: hp2; rewrite hp => -[-> ->].
rewrite e1 in xn; rewrite e3 e4 in hB.
have [xs' [sn [ex _] hx sdat _]] := C116_data hp; have {}ex : xs' = xs by case: ex.
rewrite ex in hx.
have dn : data_ != [::] by rewrite -size_eq0; apply/eqP => e; move: n0; rewrite -sdat e.
have [k [ck ->]] := hB s0 dn.
have px x : x \in xs -> pos_fin (init_density init dom x) by move=> /(nthP 0) [i hi <-]; rewrite hx.
have [k' [ck' ->]] := hD px s0 dn xn.
by rewrite (first_closest_uniq ck ck').
Qed.

(** In particular with the default arguments: uniform on [0, 1]. *)
Theorem C119_default ns no mu sigma nrm dint draws z D B :
  density_prob ns no mu sigma None None nrm [:: 0; 1] dint true draws z = Ok D ->
  bayes_prob ns no mu sigma None draws z = Ok B ->
  (forall j, 0 <= draws j < 1) -> 0 < sigma -> 0 < no ->
  (mud D).2 = (map_pt B).2 /\ is_ok (mud D).2.
Proof.
have e j : init_draws None [:: 0; 1] draws j = draws j by rewrite /init_draws /= add0r subr0 mul1r.
move=> hD hB hd s0 n0; apply: (C119_mud_is_map hD) => //.
  move: hB; rewrite /identity_1D_bayes_prob /polynomial_1D_data eqxx; cbn [guard rbind].
  by case: ns {hD} => // n; cbn [rbind]; rewrite (eq_mkseq e).
move=> j; rewrite e; exists (1 / 1); first by rewrite divr1 ltr01.
by have /andP [h1 h2] := hd j; rewrite /init_density /updf /= subr0 ltr01 h1 add0r (ltW h2).
Qed.

(** ** C120 *)
Notation pass := (@comparison_pass R expf cpi K kde kde_pdf trunc ln).
Notation run_comparison := (@run_comparison R expf cpi K kde kde_pdf trunc ln).

Lemma map_again (B : bprob R sdist) x : (map_pt B).2 = Ok x -> (map_pt (map_pt B).1).2 = Ok x.
Proof.
rewrite /sb_map /map_point; case eB : (b_ps B) => [ps|].
  by cbn [sbind lift fst snd]; rewrite eB; cbn [sbind lift fst snd]; rewrite eB.
case F : (bfit _ _ _ _) => [s [[]|]] //; cbn [sbind lift fst snd].
have : exists ps, b_ps s = Some ps.
  move: F; rewrite /bfit; case: (match b_pr B with Some _ => _ | None => _ end) => s1 [[]|] //; cbn [sbind].
  case: (b_ll s1) => [ll|] //; case: (rbind _ _) => [ps|] //.
  by case=> <-; exists ps.
by case=> ps e; rewrite e; cbn [sbind lift fst snd]; rewrite e.
Qed.

Definition mk_prior (r : seq R) (x : R) : xnum := updf (np_min r) (np_max r - np_min r) x.

Lemma mud_kde (xs qs dom : seq R) dint (obs : seq xnum) dob s' v : size qs = size xs -> size dom = 2%N ->
  mud (DP (col xs) (Nd [:: size xs; 1%N] qs) (Nd [:: 1%N; 2%N] dom) dint (nseq (size xs) (Fin 1)) None None None None
          (Some obs) None None dob) = (s', Ok v) ->
  exists k pr rs up m,
      [/\ kde (Nd [:: size xs; 1%N] qs) tt (nseq (size xs) (Fin 1)) = Ok k,
          kde_pdf k (Nd [:: size xs; 1%N] qs) = Ok pr,
          xvbop (@xdiv R) obs pr = Ok rs,
          xvbop (@xmul R) [seq mk_prior dom x | x <- xs] rs = Ok up &
          [/\ argmax up = Ok m, (m < size xs)%N, v = [:: nth 0 xs m] &
      s' = DP (col xs) (Nd [:: size xs; 1%N] qs) (Nd [:: 1%N; 2%N] dom) dint (nseq (size xs) (Fin 1))
        (Some rs) (Some up) (Some [seq mk_prior dom x | x <- xs]) (Some pr)
        (Some obs) (Some (Uni [:: np_min dom] [:: np_max dom - np_min dom])) (Some (Est k)) dob]].
Proof.
move=> sq sd; rewrite /sd_mud /mud_point /ensure_up; cbn [d_up].
rewrite /fit /fill_defaults; cbn [d_in]; rewrite /set_initial /default_initial; cbn [ddom dim Nd.shape nth].
have -> : rows (Nd [:: 1%N; 2%N] dom) = [:: dom] by rewrite /rows /dim /= -sd take_size.
cbn [eqn eq_op nat_eqType Equality.op Equality.class nat_eqMixin map zip fst snd rbind dX].
rewrite /sd_pdf (@spdf_col (Uni [:: np_min dom] [:: np_max dom - np_min dom]) _ _ _ (erefl _) (erefl _)); cbn [rbind].
rewrite prod_col; cbn [rbind sbind d_pr dX dy ddom d_int d_w d_r d_up d_in d_ob d_in_dist d_pr_dist d_ob_dist].
rewrite /set_predicted /no_args; cbn [pa_w sbind]; rewrite /predicted_values; cbn [pa_dist dy pa_bw d_w].
rewrite /skde; case ek : (kde _ _ _) => [k|]; cbn [rbind]; last by [].
rewrite /skde_pdf; case ep : (kde_pdf _ _) => [pr|]; cbn [rbind sbind d_ob d_pr odflt oapp]; last by [].
rewrite /lift; cbn [rbind sbind odflt oapp d_ob d_pr dX dy ddom d_int d_w d_r d_up d_in d_in_dist d_pr_dist d_ob_dist].
case er : (xvbop (@xdiv R) obs pr) => [rs|]; cbn [sbind put_r d_in d_w odflt oapp dX dy ddom d_int d_r d_up d_ob d_pr d_in_dist d_pr_dist d_ob_dist]; last by [].
rewrite xvbop_same ?size_map ?size_nseq //; cbn [rbind].
have -> : [seq xmul p.1 p.2 | p <- zip [seq updf (np_min dom) (np_max dom - np_min dom) x | x <- xs]
             (nseq (size xs) (Fin 1))] = [seq mk_prior dom x | x <- xs].
  by elim: (xs) => //= x l ->; rewrite xmul1r.
case eu : (xvbop (@xmul R) [seq mk_prior dom x | x <- xs] rs) => [up|]; cbn [sbind put_up d_up d_in d_w odflt oapp dX dy ddom d_int d_r d_ob d_pr d_in_dist d_pr_dist d_ob_dist]; last by [].
case em : (argmax up) => [m|]; cbn [rbind]; last by [].
rewrite /row_at /dim /=; case: ltnP => // hm; rewrite rows_col // (nth_map 0) // => -[<- <-].
by exists k, pr, rs, up, m.
Qed.

Lemma pass_state p ns mu sigma dom dint N u z D B :
  pass p ns mu sigma dom dint N u z = Ok (D, B) ->
  exists xs data_ B0 x k pr, let qs := [seq x ^+ p | x <- xs] in
  exists rs up m,
  [/\ size dom = 2%N, poly p ns 2 u mu sigma N z = Ok (col xs, Nd [:: size xs; 1%N] qs, data_),
      [/\ ready xs qs dom data_ sigma B0, by_ B0 = Nd [:: size xs; 1%N] qs, B = (map_pt B0).1 & (map_pt B0).2 = Ok x],
      [/\ kde (Nd [:: size xs; 1%N] qs) tt (nseq (size xs) (Fin 1)) = Ok k,
          kde_pdf k (Nd [:: size xs; 1%N] qs) = Ok pr,
          xvbop (@xdiv R) [seq npdf (np_mean1 data_) sigma q | q <- qs] pr = Ok rs,
          xvbop (@xmul R) [seq mk_prior dom x | x <- xs] rs = Ok up & argmax up = Ok m] /\ (m < size xs)%N &
      exists dd, D = DP (col xs) (Nd [:: size xs; 1%N] qs)
        (Nd [:: 1%N; 2%N] (pad_row (cast_of trunc dint) (5%:R / 100%:R) dom)) dint (nseq (size xs) (Fin 1))
        (Some rs) (Some up) (Some [seq mk_prior dom x | x <- xs]) (Some pr)
        (Some [seq npdf (np_mean1 data_) sigma q | q <- qs]) (Some dd) (Some (Est k))
        (Some (Nor [:: np_mean1 data_] sigma))].
Proof.
rewrite /comparison_pass; case P : (poly _ _ _ _ _ _ _ _) => [[[lam q] data_]|] //; cbn [rbind fst snd].
have sd2 : size dom = 2%N.
  by have [] := C116_errors p ns (size dom) u mu sigma N z; rewrite P /= => /esym/andP [/eqP].
have [xs [sn [el eq] hx sdat _]] := C116_data P; rewrite el eq.
set qs := [seq x ^+ p | x <- xs]; have sq : size qs = size xs by rewrite size_map.
case I : (density_init _ _ _ _ _ _ _ _ _ _) => [P0|] //; cbn [rbind].
have [ws [sw /(_ erefl) -> ->]] := init_col sq I.
rewrite /after /sd_observed /set_observed; cbn [odflt oapp rbind dX dy ddom d_int d_w d_r d_up d_in d_pr d_ob d_in_dist d_pr_dist d_ob_dist].
rewrite /sd_pdf (@spdf_col _ (npdf (np_mean1 data_) sigma) _ _ _ sq) //; cbn [rbind]; rewrite prod_col; cbn [rbind fst snd].
case eM : (mud _) => [s1 [v|]]; cbn [rbind fst snd]; last by [].
rewrite sd2 in eM; have [k [pr [rs [up [m [h1 h2 h3 h4 [h5 h6 h7 h8]]]]]]] := mud_kde sq sd2 eM.
have hn : Some dom = None -> xs != [::] by [].
have [B0 [eB hB hy]] := @bayes_build xs qs (Some dom) data_ sigma sq hn.
move: eB; cbn [omap obind oapp prior_range]; rewrite /prior_range in hB.
case: (bayes_init _ _ _ _ _ _) => [B1|] //; cbn [rbind].
rewrite /after; case eL : (sb_likelihood _ _ _ _ _ _) => [B2 [[]|]] //; cbn [rbind fst snd] => -[eB].
rewrite eB; case eMap : ((map_pt B0).2) => [x|]; cbn [rbind]; last by [].
rewrite h8 /plot_param_space /fit_domain; cbn [ddom d_int d_in_dist].
have -> : fit_domain_bounds (cast_of trunc dint) (5%:R / 100%:R) (Nd [:: 1%N; 2%N] dom) =
    Ok (Nd [:: 1%N; 2%N] (pad_row (cast_of trunc dint) (5%:R / 100%:R) dom)).
  rewrite /fit_domain_bounds /ndim /dim /=; congr (Ok (Nd _ _)).
  by rewrite /rows /dim /= -sd2 take_size cats0.
rewrite /lift; cbn [sbind rbind fst snd isSome guard d_in_dist] => -[<- <-].
exists xs, data_, B0, x, k, pr, rs, up, m; split=> //.
- by move: P; rewrite sd2 el eq.
- by eexists.
Qed.

Lemma map_keeps (B : bprob R sdist) : bX (map_pt B).1 = bX B /\ bdom (map_pt B).1 = bdom B /\ by_ (map_pt B).1 = by_ B.
Proof.
rewrite /sb_map /map_point /lift; case eB : (b_ps B) => [ps|]; first by cbn [sbind fst snd].
have fin (s : bprob R sdist) : let r := match b_ll s with
    | None => (s, Err TypeError)
    | Some ll =>
      match (ps <- combine ln (b_log s) (odflt [::] (b_pr s)) ll ;;
             _ <- guard (size ps == dim (bX s) 0) AssertionError ;;
             _ <- guard (~~ xzero (xsum ps)) ValueError ;; Ok ps) with
      | Err e => (s, Err e)
      | Ok ps => (BP (bX s) (by_ s) (bdom s) (Some ps) (b_pr s) (b_ll s) (b_log s) (b_ll_dist s)
                     (b_pr_dist s), Ok tt)
      end
    end in [/\ bX r.1 = bX s, bdom r.1 = bdom s & by_ r.1 = by_ s].
  by cbv zeta; case: (b_ll s) => [ll|] //; case: (_ <- combine _ _ _ _ ;; _).
suff : [/\ bX (bfit spdf (@Uni R K) ln B).1 = bX B, bdom (bfit spdf (@Uni R K) ln B).1 = bdom B
    & by_ (bfit spdf (@Uni R K) ln B).1 = by_ B].
  by case: (bfit _ _ _ _) => s [[]|e]; cbn [sbind fst snd] => -[].
rewrite /bfit; case: (b_pr B) => [pr|]; cbn [sbind]; first exact: fin.
suff : [/\ bX (set_prior spdf (@Uni R K) B None).1 = bX B, bdom (set_prior spdf (@Uni R K) B None).1 = bdom B
    & by_ (set_prior spdf (@Uni R K) B None).1 = by_ B].
  case: (set_prior _ _ _ _) => s [[]|e]; cbn [sbind fst snd] => -[<- <- <-] //; exact: fin.
rewrite /set_prior; case: (default_prior _ _) => [d|] //.
by case: (_ <- spdf _ _ ;; _).
Qed.

Lemma between_two (a b y : R) : a < b -> between [:: a; b] y = (a <= y <= b).
Proof.
move=> ab; rewrite /between /= !orbF; apply/andP/andP => [[h1 h2]|[-> ->]]; last by rewrite orbT.
split; first by case/orP: h1 => // h1; apply: le_trans h1; exact: ltW.
by case/orP: h2 => // h2; apply: (le_trans h2); exact: ltW.
Qed.

Lemma mud_kde_ok (xs qs dom : seq R) dint (obs : seq xnum) dob k pr : size qs = size xs -> size dom = 2%N ->
  xs != [::] -> size obs = size xs -> size pr = size xs ->
  kde (Nd [:: size xs; 1%N] qs) tt (nseq (size xs) (Fin 1)) = Ok k ->
  kde_pdf k (Nd [:: size xs; 1%N] qs) = Ok pr ->
  exists s' v, mud (DP (col xs) (Nd [:: size xs; 1%N] qs) (Nd [:: 1%N; 2%N] dom) dint (nseq (size xs) (Fin 1)) None None None None
          (Some obs) None None dob) = (s', Ok v).
Proof.
move=> sq sd xn so sp ek ep; rewrite /sd_mud /mud_point /ensure_up; cbn [d_up].
rewrite /fit /fill_defaults; cbn [d_in]; rewrite /set_initial /default_initial; cbn [ddom dim Nd.shape nth].
have -> : rows (Nd [:: 1%N; 2%N] dom) = [:: dom] by rewrite /rows /dim /= -sd take_size.
cbn [eqn eq_op nat_eqType Equality.op Equality.class nat_eqMixin map zip fst snd rbind dX].
rewrite /sd_pdf (@spdf_col (Uni [:: np_min dom] [:: np_max dom - np_min dom]) _ _ _ (erefl _) (erefl _)); cbn [rbind].
rewrite prod_col; cbn [rbind sbind d_pr dX dy ddom d_int d_w d_r d_up d_in d_ob d_in_dist d_pr_dist d_ob_dist].
rewrite /set_predicted /no_args; cbn [pa_w sbind]; rewrite /predicted_values; cbn [pa_dist dy pa_bw d_w].
rewrite /skde ek; cbn [rbind].
rewrite /skde_pdf ep; cbn [rbind sbind d_ob d_pr odflt oapp].
rewrite /lift; cbn [rbind sbind odflt oapp d_ob d_pr dX dy ddom d_int d_w d_r d_up d_in d_in_dist d_pr_dist d_ob_dist].
rewrite xvbop_same ?so //; cbn [sbind put_r d_in d_w odflt oapp dX dy ddom d_int d_r d_up d_ob d_pr d_in_dist d_pr_dist d_ob_dist].
rewrite xvbop_same ?size_map ?size_nseq //; cbn [rbind].
rewrite xvbop_same; last by rewrite !(size_map, size_zip, size_nseq) so sp !minnn.
cbn [sbind put_up d_up d_in d_w odflt oapp dX dy ddom d_int d_r d_ob d_pr d_in_dist d_pr_dist d_ob_dist].
set up := (X in argmax X).
have su : size up = size xs.
  by rewrite !(size_map, size_zip, size_nseq) so sp !minnn.
have := argmax_ok up; rewrite su lt0n size_eq0 xn; case A : (argmax up) => [m|] // _; cbn [rbind].
have mlt : (m < size xs)%N by have := argmaxP A; case: ifP => _ [] h _ _; rewrite su in h.
rewrite /row_at /dim /= mlt; by eexists; eexists.
Qed.

(** When the kernel density estimate of the powers works, a pass returns exactly when some sample
    is in the domain, and raises ValueError otherwise. *)
Theorem C120_returns p ns mu sigma a b dint N u z :
  a < b -> 0 < sigma -> 0 < N -> 0 < ns ->
  (forall xs : seq R, xs != [::] -> exists k pr, [/\ kde (Nd [:: size xs; 1%N] xs) tt (nseq (size xs) (Fin 1)) = Ok k,
     kde_pdf k (Nd [:: size xs; 1%N] xs) = Ok pr & size pr = size xs]) ->
  if has (fun x => a <= x <= b) (mkseq u `|ns|%N) then is_ok (pass p ns mu sigma [:: a; b] dint N u z) = true
  else pass p ns mu sigma [:: a; b] dint N u z = Err ValueError.
Proof.
move=> ab s0 n0 m0 hk; rewrite /comparison_pass.
have [e0 _] := C116_errors p ns 2 u mu sigma N z.
rewrite eqxx (ltW n0) (ltW m0) /= in e0; move: e0; rewrite [size _](_ : _ = 2%N) //.
case P : (poly _ _ _ _ _ _ _ _) => [[[lam q] data_]|] // _; cbn [rbind fst snd].
have [xs [sn [el eq] hx sdat _]] := C116_data P; rewrite el eq.
have -> : mkseq u `|ns|%N = xs.
  apply: (@eq_from_nth _ 0); rewrite -sn size_mkseq //= => i hi; by rewrite nth_mkseq // hx.
have xn : xs != [::] by rewrite -size_eq0; apply/eqP => e; move: m0; rewrite -sn e.
have dn : data_ != [::] by rewrite -size_eq0; apply/eqP => e; move: n0; rewrite -sdat e.
set qs := [seq x ^+ p | x <- xs]; have sq : size qs = size xs by rewrite size_map.
have qn : qs != [::] by rewrite -size_eq0 sq size_eq0.
case I : (density_init _ _ _ _ _ _ _ _ _ _) => [P0|]; last first.
  move: I; rewrite /density_init.
  have s2 sh c d (v : seq R) : set_shape sh (Nd [:: c; d] v) = Ok (Nd [:: c; d] v) by [].
  by rewrite !s2; cbn [rbind]; rewrite shape_dom; cbn [rbind dim Nd.shape nth]; rewrite eqxx.
cbn [rbind].
have [ws [sw /(_ erefl) -> ->]] := init_col sq I.
rewrite /after /sd_observed /set_observed; cbn [odflt oapp rbind dX dy ddom d_int d_w d_r d_up d_in d_pr d_ob d_in_dist d_pr_dist d_ob_dist].
rewrite /sd_pdf (@spdf_col _ (npdf (np_mean1 data_) sigma) _ _ _ sq) //; cbn [rbind]; rewrite prod_col; cbn [rbind fst snd].
have [k [pr [ek ep sp]]] := hk _ qn; rewrite sq in ek ep sp.
have [s1 [v eM]] := @mud_kde_ok xs qs [:: a; b] dint [seq npdf (np_mean1 data_) sigma x | x <- qs]
   (Some (Nor [:: np_mean1 data_] sigma)) k pr sq erefl xn (etrans (size_map _ _) sq) sp ek ep.
rewrite eM; cbn [rbind fst snd].
have [k' [pr' [rs [up [m' [_ _ _ _ [_ _ _ h8]]]]]]] := mud_kde sq (erefl : size [:: a; b] = 2%N) eM.
have hn : Some [:: a; b] = None -> xs != [::] by [].
have [B0 [eB hB hy]] := @bayes_build xs qs (Some [:: a; b]) data_ sigma sq hn.
move: eB; cbn [omap obind oapp]; rewrite /prior_range in hB.
case: (bayes_init _ _ _ _ _ _) => [B1|] //; cbn [rbind].
rewrite /after; case eL : (sb_likelihood _ _ _ _ _ _) => [B2 [[]|]] //; cbn [rbind fst snd] => -[eB].
rewrite eB.
have [_ _ h3 _ h5] := map_closest sq (isT : [:: a; b] != [::]) xn hB.
have ns' : ~~ single [:: a; b] by rewrite /single /= eqxx andbT /= (gt_eqF ab).
rewrite -(eq_has (fun y => between_two y ab)).
case: ifP => [hh|/negbT hh]; last by rewrite h5 //; left.
have [m [_ ->]] := h3 s0 dn ns' hh; cbn [rbind].
by rewrite h8 /plot_param_space /fit_domain; cbn [ddom d_int d_in_dist].
Qed.

(** One pass of the loop: the BayesProblem.  Its samples are the draws from [0, 1) whatever the
    domain, and its MAP point is the first of the samples in the domain whose power is closest to
    the mean of the data. *)
Theorem C120_map p ns mu sigma a b dint N u z D B :
  pass p ns mu sigma [:: a; b] dint N u z = Ok (D, B) -> a < b -> 0 < sigma -> 0 < N ->
  exists xs data_ k, let qs := [seq x ^+ p | x <- xs] in
  [/\ poly p ns 2 u mu sigma N z = Ok (col xs, Nd [:: size xs; 1%N] qs, data_),
      bX B = col xs /\ by_ B = Nd [:: size xs; 1%N] qs, bdom B = Nd [:: 1%N; 2%N] [:: a; b],
      first_closest_in (fun x => a <= x <= b) xs qs (mean data_) k &
      (map_pt B).2 = Ok [:: nth 0 xs k]].
Proof.
move=> h ab s0 n0.
have [xs [data_ [B0 [x [kk [pr [rs [up [m [_ hp [hB hy eB em] [_ hm] _]]]]]]]]]] := pass_state h.
have [k0 [k1 k2]] := map_keeps B0.
have xn : xs != [::] by rewrite -size_eq0 -lt0n (leq_ltn_trans _ hm).
have dn : data_ != [::].
  have [_ [_ _ _ sdat _]] := C116_data hp; rewrite -size_eq0; apply/eqP => e; move: n0; by rewrite -sdat e.
have sq : size [seq x ^+ p | x <- xs] = size xs by rewrite size_map.
have [_ _ h3 _ h5] := map_closest sq (isT : [:: a; b] != [::]) xn hB.
have ns' : ~~ single [:: a; b] by rewrite /single /= eqxx andbT /= (gt_eqF ab).
case: (boolP (has (between [:: a; b]) xs)) => [hh|hh]; last by move: em; rewrite h5 //; left.
have [k [ck ek]] := h3 s0 dn ns' hh.
have eb y := between_two y ab.
exists xs, data_, k; split=> //.
- by rewrite eB k0 k2 hy; case: hB.
- by rewrite eB k1; case: hB.
- case: ck => c1 c2 c3 c4; split=> //; first by rewrite -eb.
  + by move=> i hi; rewrite -eb; apply: c3.
  + by move=> i hi; rewrite -eb; apply: c4.
- rewrite eB; apply: map_again; exact: ek.
Qed.

(** The DensityProblem of the pass, after the plots: its domain has grown by 5 percent of its width
    on each side (to integers towards zero for an integer domain), and it is not used again. *)
Theorem C120_domain p ns mu sigma a b dint N u z D B :
  pass p ns mu sigma [:: a; b] dint N u z = Ok (D, B) ->
  let c := if dint then trunc else id in
  ddom D = Nd [:: 1%N; 2%N] [:: c (a - (b - a) / 20%:R); c (b + (b - a) / 20%:R)].
Proof.
move=> h; have [xs [data_ [B0 [x [kk [pr [rs [up [m [_ _ _ _ [dd ->]]]]]]]]]]] := pass_state h.
have e : 5%:R / 100%:R = 20%:R^-1 :> R by field.
cbn [ddom pad_row]; rewrite e /cast_of.
by rewrite [20%:R^-1 * _]mulrC; case: (dint).
Qed.

(** Its densities: uniform on the domain as given, normal around the mean of the data with standard
    deviation sigma, the kernel density estimate of the powers; the updated density is their
    product and quotient, and the MUD point is the first sample where it is largest. *)
Theorem C120_density p ns mu sigma a b dint N u z D B :
  pass p ns mu sigma [:: a; b] dint N u z = Ok (D, B) -> a < b -> 0 < sigma -> 0 < N ->
  exists xs data_ k (pr : seq xnum), let qs := [seq x ^+ p | x <- xs] in
  [/\ poly p ns 2 u mu sigma N z = Ok (col xs, Nd [:: size xs; 1%N] qs, data_),
      dX D = col xs /\ dy D = Nd [:: size xs; 1%N] qs,
      kde (Nd [:: size xs; 1%N] qs) tt (nseq (size xs) (Fin 1)) = Ok k,
      kde_pdf k (Nd [:: size xs; 1%N] qs) = Ok pr &
      forall e : seq R, size e = size xs -> pr = [seq Fin c | c <- e] -> (forall i, (i < size xs)%N -> 0 < nth 0 e i) ->
      let prior i := if a <= nth 0 xs i <= b then 1 / (b - a) else 0 in
      let obs i := nval (mean data_) sigma (nth 0 xs i ^+ p) in
      let upd i := prior i * (obs i / nth 0 e i) in
      [/\ d_in D = Some (mkseq (fun i => Fin (prior i)) (size xs)),
          d_ob D = Some (mkseq (fun i => Fin (obs i)) (size xs)),
          d_up D = Some (mkseq (fun i => Fin (upd i)) (size xs)) &
          exists m, [/\ (m < size xs)%N, forall i, (i < size xs)%N -> upd i <= upd m,
            forall i, (i < m)%N -> upd i < upd m & (mud D).2 = Ok [:: nth 0 xs m]]]].
Proof.
move=> h ab s0 n0.
have [xs [data_ [B0 [x [kk [pr [rs [up [m [_ hp _ [[h1 h2 h3 h4 h5] hm] [dd eD]]]]]]]]]]] := pass_state h.
set qs := [seq x ^+ p | x <- xs] in hp h1 h2 h3 h4 h5 eD.
have dn : data_ != [::].
  have [_ [_ _ _ sdat _]] := C116_data hp; rewrite -size_eq0; apply/eqP => e; move: n0; by rewrite -sdat e.
exists xs, data_, kk, pr; split=> //; first by rewrite eD.
move=> e se epr epos prior obs upd.
have ein : [seq mk_prior [:: a; b] x | x <- xs] = mkseq (fun i => Fin (prior i)) (size xs).
  apply: (@eq_from_nth _ NaN); first by rewrite size_map size_mkseq.
  move=> i; rewrite size_map => hi; rewrite nth_mkseq // (nth_map 0) // /mk_prior.
  have -> : np_min [:: a; b] = a by rewrite /np_min /= (min_r (ltW ab)) minxx.
  have -> : np_max [:: a; b] = b by rewrite /np_max /= (max_l (ltW ab)) (max_r (ltW ab)).
  by rewrite /updf subr_gt0 ab addrC subrK.
have eob : [seq npdf (np_mean1 data_) sigma q | q <- qs] = mkseq (fun i => Fin (obs i)) (size xs).
  apply: (@eq_from_nth _ NaN); first by rewrite !size_map size_iota.
  move=> i; rewrite !size_map => hi; rewrite nth_mkseq // (nth_map 0) ?size_map // (nth_map 0) //.
  have -> : np_mean1 data_ = Fin (mean data_) by case: (data_) dn.
  by rewrite /npdf s0.
rewrite eob epr xvbop_same ?(size_map, size_iota) // in h3.
have ers : rs = mkseq (fun i => Fin (obs i / nth 0 e i)) (size xs).
  case: h3 => <-; apply: (@eq_from_nth _ NaN); first by rewrite !(size_map, size_zip, size_iota) se minnn.
  move=> i; rewrite !(size_map, size_zip, size_iota) se minnn => hi.
  rewrite nth_mkseq // nth_zipmap ?(size_map, size_iota) ?se // nth_mkseq // (nth_map 0) ?se //=.
  by rewrite (gt_eqF (epos _ hi)).
rewrite ein ers xvbop_same ?(size_map, size_iota) // in h4.
have eup : up = mkseq (fun i => Fin (upd i)) (size xs).
  case: h4 => <-; apply: (@eq_from_nth _ NaN); first by rewrite !(size_map, size_zip, size_iota) minnn.
  move=> i; rewrite !(size_map, size_zip, size_iota) minnn => hi.
  by rewrite nth_mkseq // nth_zipmap ?(size_map, size_iota) // !nth_mkseq.
split; rewrite ?eD ?ein ?eob ?eup //.
have nn : has (@isnan R) up = false.
  apply/negbTE/(has_nthP NaN) => -[i]; rewrite eup size_mkseq => hi; by rewrite nth_mkseq.
have := argmaxP h5; rewrite nn => -[g1 g2 g3]; exists m; split=> //.
- by move=> i hi; have := g2 i; rewrite eup size_mkseq !nth_mkseq // => /(_ hi).
- by move=> i hi; have := g3 i hi; rewrite eup !nth_mkseq // (ltn_trans hi).
- rewrite /sd_mud /mud_point /ensure_up /lift; cbn [d_up sbind fst snd odflt oapp dX].
  by rewrite -eup h5; cbn [rbind]; rewrite /row_at /dim /= hm rows_col // (nth_map 0).
Qed.

(** The whole comparison: one result per number of observations, in order, each from the draws of
    its own pass; the first pass that raises ends it. *)
Theorem C120_list p ns mu sigma dom dint Ns draw rs :
  run_comparison p ns mu sigma dom dint Ns draw = Ok rs <->
  [seq Ok r | r <- rs] =
  [seq pass p ns mu sigma dom dint (nth 0 Ns i) (draw i).1 (draw i).2 | i <- iota 0 (size Ns)].
Proof.
elim: Ns draw rs => [|N Ns ih] draw rs /=.
  by split=> [[<-]|]; last case: rs.
rewrite (iotaDl 1 0) -map_comp /=.
case E : (pass _ _ _ _ _ _ _ _ _) => [r|e]; cbn [rbind]; last by split=> //; case: rs.
case F : (run_comparison _ _ _ _ _ _ _ _) => [rs'|e]; cbn [rbind].
  have /ih e := F; split=> [[<-]|]; first by rewrite /= e.
  case: rs => // r' rs2 [-> e2]; congr (Ok (_ :: _)).
  by have /ih := e2; rewrite F => -[].
by split=> //; case: rs => // r' rs2 [_ /ih]; rewrite F.
Qed.

Theorem C120_raises p ns mu sigma dom dint Ns draw e :
  run_comparison p ns mu sigma dom dint Ns draw = Err e <->
  exists2 i, (i < size Ns)%N & pass p ns mu sigma dom dint (nth 0 Ns i) (draw i).1 (draw i).2 = Err e /\
    forall j, (j < i)%N -> is_ok (pass p ns mu sigma dom dint (nth 0 Ns j) (draw j).1 (draw j).2).
Proof.
elim: Ns draw => [|N Ns ih] draw /=; first by split=> // -[].
case E : (pass _ _ _ _ _ _ _ _ _) => [r|e']; cbn [rbind]; last first.
  split=> [[<-]|[[|i] hi [h1 h2]]]; first by exists 0%N.
    by move: h1; rewrite /= E => -[->].
  by have := h2 0%N isT; rewrite /= E.
have := ih (fun i => draw i.+1).
case F : (run_comparison _ _ _ _ _ _ _ _) => [rs'|e']; cbn [rbind] => ihF; split=> //.
- by move=> [[|i] hi [h1 h2]]; [move: h1; rewrite /= E | have/ihF : exists2 i, (i < size Ns)%N & pass p ns mu sigma dom dint (nth 0 Ns i) (draw i.+1).1 (draw i.+1).2 = Err e /\
    (forall j, (j < i)%N -> is_ok (pass p ns mu sigma dom dint (nth 0 Ns j) (draw j.+1).1 (draw j.+1).2)) by exists i => //; split=> // j hj; apply: (h2 j.+1)].
- move=> [ee]; rewrite ee in ihF; have [i hi [h1 h2]] := ihF.1 erefl; exists i.+1 => //; split=> // -[|j] hj; first by rewrite /= E.
  exact: h2.
- move=> [[|i] hi [h1 h2]]; first by move: h1; rewrite /= E.
  by apply/ihF; exists i => //; split=> // j hj; apply: (h2 j.+1).
Qed.
End SimpleProps.
