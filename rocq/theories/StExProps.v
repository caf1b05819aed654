(** Properties C121 and C122: examples built on SpatioTemporalProblem. *)
Set Warnings "-notation-overridden,-ambiguous-paths".
From mathcomp Require Import all_ssreflect all_algebra.
From Coq Require Import String.
From Verif Require Import Py Nd Xnum UtilModel DensityModel NdProofs UtilModel2 UtilProps StModel StProps StProps2 StProps3 StProps4 StProps5
  SimpleModel SimpleProps StExModel.
Set Implicit Arguments. Unset Strict Implicit. Unset Printing Implicit Defensive.
Import Order.Theory GRing.Theory Num.Theory.
Local Open Scope ring_scope.

Section StExProps.
Variable R : rcfType.
Notation nd := (nd R).
Notation st := (st R).
Variable expf : R -> R.
Variable ceil : R -> int.
Hypothesis ceilP : forall x, (ceil x)%:~R - 1 < x <= (ceil x)%:~R.

(** ** C121 *)
Notation arange := (np_arange ceil).
Notation decay := (decay expf).
Notation exp1 := (exp_decay_1D expf ceil).

Lemma ceil_lt x (i : nat) : ((i < (if ceil x is Posz n then n else 0%N))%N) = (i%:R < x).
Proof.
have /andP [h1 h2] := ceilP x; case E : (ceil x) h1 h2 => [n|n] h1 h2.
  apply/idP/idP => hi.
    apply: le_lt_trans h1; rewrite ler_subr_addr -(natrD _ i 1) addn1 -[X in _ <= X]/(n%:R) ler_nat //.
  by have := lt_le_trans hi h2; rewrite -[X in _ < X]/(n%:R) ltr_nat.
symmetry; apply/negbTE; rewrite -leNgt; apply: (le_trans h2); apply: (@le_trans _ _ 0) => //.
by rewrite NegzE mulrNz oppr_le0 ler0n.
Qed.

Lemma arangeP start stop freq ts : arange start stop freq = Ok ts ->
  freq != 0 /\ (forall i, (i < size ts)%N -> nth 0 ts i = start + i%:R / freq) /\
  (forall i, (i < size ts)%N = if 0 < freq then start + i%:R / freq < stop else stop < start + i%:R / freq).
Proof.
rewrite /np_arange; case: eqP => // /eqP f0 [<-]; split=> //; split=> i.
  by rewrite size_mkseq => hi; rewrite nth_mkseq // div1r.
rewrite size_mkseq ceil_lt div1r invrK; case: (ltrgtP freq 0) f0 => // hf _.
  by rewrite -ltr_ndivl_mulr // ltr_subl_addl.
by rewrite -ltr_pdivr_mulr // ltr_subr_addl.
Qed.

Lemma after_ok S (m : S * res unit) s : m = (s, Ok tt) -> after m = Ok s.
Proof. by move=> ->. Qed.

Lemma decay_wf u0 ls ts : nd_wf (decay u0 ls ts).
Proof. by rewrite /nd_wf /= /prodn /= muln1 size_allpairs. Qed.

Lemma decay_ent u0 ls ts i j : (i < size ls)%N -> (j < size ts)%N ->
  ent (decay u0 ls ts) i j = u0 * expf (- (nth 0 ls i * nth 0 ts j)).
Proof.
move=> hi hj; rewrite /ent.
have -> : rows (decay u0 ls ts) = [seq [seq u0 * expf (- (l * t)) | t <- ts] | l <- ls].
  rewrite /rows /dim /=; elim: ls {hi} => [|l ls ih] //=.
  by rewrite take_size_cat ?size_map // drop_size_cat ?size_map // ih.
by rewrite (nth_map 0) // (nth_map 0).
Qed.

(** What exp_decay_1D returns. *)
Theorem C121_exp_decay u0 tr a b (n : nat) lt t0 freq sd draws :
  a <= b -> freq != 0 ->
  exists (xs ts tv : seq R) (d : nd),
  exp1 u0 tr [:: a; b] n lt t0 freq sd draws =
    Ok (ST (Some (Nd [:: 1; 2]%N [:: a; b])) (Some (Nd [:: n; 1%N] xs)) None (Some d) None
           (Some (NArr (Nd [:: size ts; 1%N] tv))) (Some "u"%string) (Some (arr0 R)) (Some (nd1 ts)) (Some sd)) /\
  [/\ size xs = n /\ (forall i, (i < n)%N -> nth 0 xs i = a + (b - a) * draws i),
      (forall j, (j < size ts)%N -> nth 0 ts j = t0 + j%:R / freq),
      (forall j, (j < size ts)%N = if 0 < freq then t0 + j%:R / freq < tr.2 else tr.2 < t0 + j%:R / freq),
      nd_wf d /\ Nd.shape d = [:: n; size ts] /\ (forall i j, (i < n)%N -> (j < size ts)%N ->
        ent d i j = u0 * expf (- (nth 0 xs i * nth 0 ts j))) &
      size tv = size ts /\ (forall j, (j < size ts)%N -> nth 0 tv j = u0 * expf (- (lt * nth 0 ts j)))].
Proof.
move=> ab f0; rewrite /exp_decay_1D; cbn [size guard rbind leq].
have [ts ets] : exists ts, arange t0 tr.2 freq = Ok ts.
  by rewrite /np_arange (negbTE f0); eexists.
have [_ [h1 h2]] := arangeP ets.
set s0 := with_dom (st0 R) (Nd [:: 1; 2]%N [:: a; b]).
have e0 : set_domain (st0 R) (nd1 [:: a; b]) = (s0, Ok tt) by [].
rewrite (after_ok e0) ets; cbn [rbind].
set s1 := with_times s0 _; have e1 : set_dist s1 "u" = (with_dist s1 "u", Ok tt) by [].
rewrite (after_ok e1); cbn [rbind].
rewrite [nth 0 [:: a; b] 1]/= [nth 0 [:: a; b] 0]/= subr_ge0 ab; cbn [guard rbind].
set xs := mkseq _ n; have sx : size xs = n by rewrite size_mkseq.
have el : set_lam (with_dist s1 "u") (nd1 xs) = (with_lam (with_dist s1 "u") (Nd [:: n; 1%N] xs), Ok tt).
  have al : arr_ok 2 (nd1 xs) by rewrite /arr_ok /nd_wf /= /prodn /= muln1 eqxx.
  have ed : s_dom (with_dist s1 "u") = Some (Nd [:: 1; 2]%N [:: a; b]) by [].
  by rewrite (C56_lam_with_domain al ed) /col2 /nd1 /ndim /dim /= -sx.
rewrite (after_ok el); cbn [rbind s_lam with_lam data].
set s2 := with_lam _ _.
have dd : data_2d (decay u0 xs ts) = Ok (decay u0 xs ts) by [].
have ed : set_data s2 (decay u0 xs ts) = (with_data (with_sens s2 (Some (arr0 R))) (decay u0 xs ts), Ok tt).
  by rewrite (set_dataE _ dd) /= /shape0 /= /dim /= eqxx.
rewrite (after_ok ed); cbn [rbind].
set s3 := with_data _ _.
set tv := [seq u0 * expf (- (lt * t)) | t <- ts]; have st_ : size tv = size ts by rewrite size_map.
have et : set_tv s3 (Some (nd1 tv)) = (with_tv s3 (NArr (Nd [:: size ts; 1%N] tv)), Ok tt).
  rewrite /set_tv /meas_reshape /n_sensors /n_ts /= /shape0 /= /dim /=.
  by rewrite mul1n /np_reshape /wild /known /fill /prodn /= !muln1 st_ eqxx.
rewrite (after_ok et); cbn [rbind].
exists xs, ts, tv, (decay u0 xs ts); split=> //; split=> //.
- by split=> // i hi; rewrite nth_mkseq.
- split; first exact: decay_wf.
  split; first by rewrite /= sx.
  by move=> i j hi hj; rewrite decay_ent ?sx.
- by split=> // j hj; rewrite (nth_map 0).
Qed.

(** When it raises what. *)
Theorem C121_errors u0 tr dom (n : int) lt t0 freq sd draws :
  let r := exp1 u0 tr dom n lt t0 freq sd draws in
  if (size dom < 2)%N then r = Err IndexError
  else if odd (size dom) then r = Err ValueError
  else if freq == 0 then r = Err ZeroDivisionError
  else if [&& size dom == 2%N, nth 0 dom 0 <= nth 0 dom 1 & 0 <= n] then is_ok r = true
  else r = Err ValueError.
Proof.
cbv zeta; rewrite /exp_decay_1D; case: ltnP => sd2; cbn [guard rbind]; first by [].
case: ifP => od.
  by rewrite /after C56_domain_odd //= -?divn2 dvdn2 od.
have sz2 : (2 %| size dom)%N by rewrite dvdn2 od.
set d := Nd [:: (size dom %/ 2)%N; 2%N] dom.
have e0 : set_domain (st0 R) (nd1 dom) = (with_dom (st0 R) d, Ok tt).
  by rewrite /set_domain reshape2 /= sz2.
rewrite (after_ok e0); cbn [rbind].
case: (eqVneq freq 0) => [->|f0]; first by rewrite /np_arange eqxx.
have [ts ets] : exists ts, arange t0 tr.2 freq = Ok ts.
  by rewrite /np_arange (negbTE f0); eexists.
rewrite ets; cbn [rbind].
set s1 := with_times _ _; have e1 : set_dist s1 "u" = (with_dist s1 "u", Ok tt) by [].
rewrite (after_ok e1); cbn [rbind]; rewrite subr_ge0.
case: (boolP (nth 0 dom 0 <= nth 0 dom 1)) => [ab|_]; cbn [guard rbind]; last by rewrite andbF.
case: n => [n|n]; cbn [rbind]; last by rewrite andbF.
case: (boolP (size dom == 2%N)) => [/eqP s2|n2] /=.
  have ed : dom = [:: nth 0 dom 0; nth 0 dom 1] by case: (dom) s2 => [|x [|y []]].
  have := C121_exp_decay u0 tr n lt t0 sd draws ab f0.
  rewrite -ed => -[xs [ts' [tv [dd [h _]]]]]; move: h; rewrite /exp_decay_1D s2 [(1 < 2)%N](_ : _ = true) //; cbn [guard rbind].
  rewrite (after_ok e0); cbn [rbind]; rewrite ets; cbn [rbind]; rewrite (after_ok e1); cbn [rbind].
  by rewrite subr_ge0 ab; cbn [guard rbind] => ->.
set xs := mkseq _ n; have sx : size xs = n by rewrite size_mkseq.
have al : arr_ok 2 (nd1 xs) by rewrite /arr_ok /nd_wf /= /prodn /= muln1 eqxx.
have ed : s_dom (with_dist s1 "u") = Some d by [].
rewrite /after (C56_lam_with_domain al ed) /col2 /nd1 /ndim /dim /=.
case: eqP => // e; case/eqP: n2; by rewrite -(divnK sz2) -e.
Qed.

(** The problem is complete but for the measurements, which can be made from the reference. *)
Theorem C121_usable u0 tr a b (n : nat) lt t0 freq sd draws s :
  exp1 u0 tr [:: a; b] n lt t0 freq sd draws = Ok s ->
  exists nt d lam ti, setup s n 1 1 nt d lam (arr0 R) ti /\
    s_meas s = None /\ s_lref s = None /\ n_sensors s = Ok 1%N /\ n_ts s = Ok nt.
Proof.
move=> h.
have [f0 ab] : freq != 0 /\ a <= b.
  have := C121_errors u0 tr [:: a; b] n lt t0 freq sd draws; rewrite h /= andbT.
  by case: eqP => // _; case: (boolP (a <= b)).
have [xs [ts [tv [d [e [[sx _] _ _ [wd [hd _]] _]]]]]] := C121_exp_decay u0 tr n lt t0 sd draws ab f0.
move: h; rewrite e => -[<-]; exists (size ts), d, (Nd [:: n; 1%N] xs), (nd1 ts); split=> //.
split=> //; cbn [s_data s_lam s_sens s_times s_meas].
- split; first by rewrite mul1n.
  by split=> //; rewrite /nd_wf /= /prodn /= !muln1 sx.
- split=> //; split; first by rewrite /nd_wf /= /prodn /= muln1.
  by left.
Qed.

(** If the true parameter is one of the samples, u_0 is not 0 and some time is not 0, the sample
    closest to the true values is the true parameter. *)
Hypothesis exp_inj : forall x y, expf x = expf y -> x = y.
Theorem C121_recovers u0 tr a b (n : nat) lt t0 freq sd draws s i0 j0 :
  exp1 u0 tr [:: a; b] n lt t0 freq sd draws = Ok s ->
  u0 != 0 -> (i0 < n)%N -> a + (b - a) * draws i0 = lt ->
  (forall nt, n_ts s = Ok nt -> (j0 < nt)%N) -> t0 + j0%:R / freq != 0 ->
  get_closest_to_true_vals s = Ok [:: lt].
Proof.
move=> h u00 hi el hj tj.
have [f0 ab] : freq != 0 /\ a <= b.
  have := C121_errors u0 tr [:: a; b] n lt t0 freq sd draws; rewrite h /= andbT.
  by case: eqP => // _; case: (boolP (a <= b)).
have [xs [ts [tv [d [e [[sx hx] ht _ [wd [hd dd]] [stv htv]]]]]]] := C121_exp_decay u0 tr n lt t0 sd draws ab f0.
move: h; rewrite e => -[es]; rewrite -es in hj *.
have {}hj : (j0 < size ts)%N by apply: hj.
have := @C60_closest_to_true_vals R (ST (Some (Nd [:: 1; 2]%N [:: a; b])) (Some (Nd [:: n; 1%N] xs)) None (Some d) None
           (Some (NArr (Nd [:: size ts; 1%N] tv))) (Some "u"%string) (Some (arr0 R)) (Some (nd1 ts)) (Some sd))
   n (size ts) 1 d (Nd [:: n; 1%N] xs) (Nd [:: size ts; 1%N] tv) erefl erefl erefl wd hd.
case: n hi sx hx hd dd e es => // n hi sx hx hd dd e es.
have wl : nd_wf (Nd [:: n.+1; 1%N] xs) by rewrite /nd_wf /= /prodn /= !muln1 sx.
move=> /(_ wl erefl stv) [i [hin -> hle _]].
have z0 : sqdist_tv d (size ts) tv i0 = 0.
  rewrite /sqdist_tv big1 // => j _; rewrite dd // htv // hx // el subrr.
  by rewrite expr0n.
have : sqdist_tv d (size ts) tv i <= 0 by rewrite -z0 hle.
rewrite le_eqVlt [_ < 0]ltNge sumr_ge0 ?orbF; last by move=> j _; apply: sqr_ge0.
rewrite psumr_eq0; last by move=> j _; apply: sqr_ge0.
move=> /allP /(_ (Ordinal hj) (mem_index_enum _)) /=; rewrite sqrf_eq0 subr_eq0 => /eqP.
rewrite dd // htv // => /(mulfI u00) /exp_inj /oppr_inj /mulIf.
rewrite ht // => /(_ tj) exi.
rewrite /row_of /= /ent rows_col // (nth_map 0) ?sx //=.
by rewrite exi.
Qed.

(** exp_decay_2D never returns ... *)
Theorem C121_2d_never_returns tr dom n lts N t0 freq sd lams :
  is_ok (exp_decay_2D expf ceil tr dom n lts N t0 freq sd lams) = false.
Proof.
rewrite /exp_decay_2D; case: (0 < _)%N => //; cbn [guard rbind].
case: (after _) => [s|] //; cbn [rbind]; case: (arange _ _ _) => [ts|] //; cbn [rbind].
case: (after _) => [s1|] //; cbn [rbind]; case: n => // n; cbn [rbind].
case: (after _) => [s2|] //; cbn [rbind]; case: (1 < _)%N => //; cbn [guard rbind].
by case: (after _).
Qed.

(** ... and with arguments that are otherwise in order it raises TypeError. *)
Theorem C121_2d_type_error tr dom (n : nat) lts N t0 freq sd lams p :
  nd_wf dom -> Nd.shape dom = [:: p; 2%N] -> (2 <= p)%N -> freq != 0 ->
  exp_decay_2D expf ceil tr dom n lts N t0 freq sd lams = Err TypeError.
Proof.
move=> wd hd p2 f0; rewrite /exp_decay_2D.
have -> : dim dom 0 = p by rewrite /dim hd.
have -> : (0 < dim dom 1)%N by rewrite /dim hd.
cbn [guard rbind].
have dw : dom_wf dom by rewrite /dom_wf wd hd /dim hd /= eqxx.
have e0 : set_domain (st0 R) dom = (with_dom (st0 R) dom, Ok tt) by rewrite /set_domain (reshape2_id dw).
rewrite (after_ok e0); cbn [rbind].
have [ts ets] : exists ts, arange t0 tr.2 freq = Ok ts.
  by rewrite /np_arange (negbTE f0); eexists.
rewrite ets; cbn [rbind]; set ts' := take _ ts.
set s1 := with_times _ _; have e1 : set_dist s1 "u" = (with_dist s1 "u", Ok tt) by [].
rewrite (after_ok e1); cbn [rbind].
set lam := Nd [:: n; p] _.
have wl : nd_wf lam by rewrite /nd_wf /= /prodn /= muln1 size_allpairs !size_iota.
have al : arr_ok 2 lam by rewrite /arr_ok wl.
have ed : s_dom (with_dist s1 "u") = Some dom by [].
have el : set_lam (with_dist s1 "u") lam = (with_lam (with_dist s1 "u") lam, Ok tt).
  by rewrite (C56_lam_with_domain al ed) /col2 /= /dim hd /= eqxx.
rewrite (after_ok el); cbn [rbind]; rewrite p2; cbn [guard rbind].
set s2 := with_lam _ _; set d := Nd [:: n; size ts'] _.
have dd : data_2d d = Ok d by [].
have esd : set_data s2 d = (with_data (with_sens s2 (Some (arr0 R))) d, Ok tt).
  by rewrite (set_dataE _ dd) /= /shape0 /= /dim /= eqxx.
by rewrite (after_ok esd).
Qed.

(** identity_1D_temporal_prob always raises ValueError: the data set it loads names the distribution
    "uniform", which the problem does not know. *)
Theorem C121_temporal T ns no yt noise dom draws z (rest : st -> res T) :
  identity_1D_temporal_prob ns no yt noise dom draws z rest = Err ValueError.
Proof.
rewrite /identity_1D_temporal_prob.
have [e1 e2] := C116_errors 1 ns 2 draws yt noise no z.
case P : (polynomial_1D_data _ _ _ _ _ _ _ _) e1 e2 => [[[l q] dt]|e] e1 e2; cbn [rbind]; first by [].
by have [->] := e2 erefl.
Qed.

(** ** C122 *)
Variable G : Type.
Variable reseed : int -> res G.
Variable randn : nat -> G -> seq R * G.
Hypothesis size_randn : forall n g, size (randn n g).1 = n.
Notation poisson := (load_poisson_prob reseed randn).
Notation adcirc := (load_adcirc_prob reseed randn).
Notation dset := (dset R).

(** The std_dev argument is ignored. *)
Theorem C122_std_dev_ignored file sd sd' seed sensors g :
  poisson file sd seed g = poisson file sd' seed g /\
  adcirc file sd seed sensors g = adcirc file sd' seed sensors g.
Proof. by []. Qed.

(** Data sets that load refuses. *)
Definition has_key (ds : dset) (k : string) : bool := isSome (lookup ds k).

Lemma gsv_raises ds s f v : has_key ds f -> (forall x, v <> NVal (VStr R x)) ->
  (forall x, v = NName R x -> ~~ has_key ds x) -> is_ok (get_set_val ds s f v).2 = false.
Proof.
rewrite /has_key /get_set_val; case: (lookup ds f) => // v0 _ h1 h2.
case: v h1 h2 => [x|[|a|x|x]] h1 h2 //.
  by have := h2 x erefl; case: (lookup ds x).
by case: (h1 x).
Qed.

Lemma load_loop_fails (ds : dset) names fs (s : st) f : List.In f fs ->
  (forall s : st, is_ok (get_set_val ds s f (names f)).2 = false) -> is_ok (load_loop ds names fs s).2 = false.
Proof.
elim: fs s => [//|f' fs ih] s [->|hf] h.
  by cbn [load_loop]; have := h s; case: (get_set_val _ _ _ _) => s' [[]|e].
cbn [load_loop]; case: (get_set_val _ _ _ _) => s' [[]|e] //; cbn [sbind]; exact: ih.
Qed.

Lemma load_with_fails names ds seed g : is_ok (load (st0 R) ds names).2 = false ->
  is_ok (load_with reseed randn names (Ok ds) seed g).2 = false.
Proof. by rewrite /load_with; case: (load _ _ _) => s [[]|e]. Qed.

(** A data set that brings one of the values that are given as values (or, for the distribution,
    under another name) is refused. *)
Theorem C122_poisson_refuses ds sd seed g :
  [|| has_key ds "std_dev", has_key ds "measurements", has_key ds "lam_ref", has_key ds "times" |
      has_key ds "sample_dist" && ~~ has_key ds "uniform"] ->
  is_ok (poisson (Ok ds) sd seed g).2 = false.
Proof.
move=> h; apply: load_with_fails.
have go f : List.In f fields -> has_key ds f -> (forall x, poisson_names R f <> NVal (VStr R x)) ->
    (forall x, poisson_names R f = NName R x -> ~~ has_key ds x) ->
    is_ok (load (st0 R) ds (poisson_names R)).2 = false.
  by move=> fi hf h1 h2; apply: (load_loop_fails _ fi) => s; apply: gsv_raises.
case/or4P: h => [h|h|h|/orP [h|/andP [h hu]]].
- by apply: (go "std_dev"%string) => //; rewrite /fields /=; tauto.
- by apply: (go "measurements"%string) => //; rewrite /fields /=; tauto.
- by apply: (go "lam_ref"%string) => //; rewrite /fields /=; tauto.
- by apply: (go "times"%string) => //; rewrite /fields /=; tauto.
- by apply: (go "sample_dist"%string) => //; [rewrite /fields /=; tauto | move=> x [<-]].
Qed.
Theorem C122_adcirc_refuses ds sd seed sensors g :
  [|| has_key ds "std_dev", has_key ds "measurements", has_key ds "sensors" |
      has_key ds "sample_dist" && ~~ has_key ds "uniform"] ->
  is_ok (adcirc (Ok ds) sd seed sensors g).2 = false.
Proof.
move=> h; apply: load_with_fails.
have go f : List.In f fields -> has_key ds f -> (forall x, adcirc_names sensors f <> NVal (VStr R x)) ->
    (forall x, adcirc_names sensors f = NName R x -> ~~ has_key ds x) ->
    is_ok (load (st0 R) ds (adcirc_names sensors)).2 = false.
  by move=> fi hf h1 h2; apply: (load_loop_fails _ fi) => s; apply: gsv_raises.
case/or4P: h => [h|h|h|/andP [h hu]].
- by apply: (go "std_dev"%string) => //; rewrite /fields /=; tauto.
- by apply: (go "measurements"%string) => //; rewrite /fields /=; tauto.
- by apply: (go "sensors"%string) => //; rewrite /fields /=; tauto.
- by apply: (go "sample_dist"%string) => //; [rewrite /fields /=; tauto | move=> x [<-]].
Qed.

(** The measurements: the true values plus 5/100 times standard normal draws. *)
Definition noisy_col (tv : seq R) (z : seq R) : nd :=
  Nd [:: size tv; 1%N] [seq nth 0 tv i + nth 0 z i * (5%:R / 100%:R) | i <- iota 0 (size tv)].

(** A data set with the values load_poisson_prob reads: the problem it returns. *)
Theorem C122_poisson_loads ds sd seed g g1 n p k d se tv lam dat :
  ~~ has_key ds "std_dev" -> ~~ has_key ds "measurements" -> ~~ has_key ds "lam_ref" ->
  ~~ has_key ds "times" -> ~~ has_key ds "sample_dist" ->
  lookup ds "domain" = Some (VArr d) -> lookup ds "sensors" = Some (VArr se) ->
  lookup ds "true_vals" = Some (VArr tv) -> lookup ds "lam" = Some (VArr lam) ->
  lookup ds "data" = Some (VArr dat) ->
  nd_wf d -> Nd.shape d = [:: p; 2%N] -> (0 < ndim se)%N -> dim se 0 = k -> (0 < k)%N ->
  size (data tv) = k -> nd_wf lam -> Nd.shape lam = [:: n; p] -> nd_wf dat -> Nd.shape dat = [:: n; k] ->
  (if seed is Some q then reseed q else Ok g) = Ok g1 ->
  poisson (Ok ds) sd seed g =
    ((randn k g1).2,
     Ok (ds, ST (Some d) (Some lam) None (Some dat) (Some (NArr (noisy_col (data tv) (randn k g1).1)))
               (Some (NArr (Nd [:: k; 1%N] (data tv)))) (Some "u"%string) (Some se) (Some (arr0 R))
               (Some (5%:R / 100%:R)))).
Proof.
rewrite /has_key => h1 h2 h3 h4 h5 e1 e2 e3 e4 e5 wd hd ns ds_ k0 stv wl hl wa ha eg.
have n1 : lookup ds "std_dev" = None by case: (lookup ds "std_dev") h1.
have n2 : lookup ds "measurements" = None by case: (lookup ds "measurements") h2.
have n3 : lookup ds "lam_ref" = None by case: (lookup ds "lam_ref") h3.
have n4 : lookup ds "times" = None by case: (lookup ds "times") h4.
have n5 : lookup ds "sample_dist" = None by case: (lookup ds "sample_dist") h5.
set s8 := ST (Some d) (Some lam) None (Some dat) None
               (Some (NArr (Nd [:: k; 1%N] (data tv)))) (Some "u"%string) (Some se) (Some (arr0 R)) (Some (sd05 R)).
have el : load (st0 R) ds (poisson_names R) = (s8, Ok tt).
  rewrite /load /fields; cbn [load_loop]; rewrite /get_set_val n1 n2 n3 n4 n5 e1 e2 e3 e4 e5.
  cbn [poisson_names String.eqb Ascii.eqb Bool.eqb sbind]; rewrite /set_field.
  cbn [String.eqb Ascii.eqb Bool.eqb sbind].
  rewrite e1 e2 e3 e4 e5.
  have dw : dom_wf d by rewrite /dom_wf wd hd /dim hd /= eqxx.
  have d0 : set_domain (st0 R) d = (with_dom (st0 R) d, Ok tt) by rewrite /set_domain (reshape2_id dw).
  rewrite d0; cbn [sbind].
  set s3 := with_sd _ _.
  have sh b : (0 < ndim b)%N -> @shape0 R b = Ok (dim b 0) by move=> q; rewrite /shape0 eqn0Ngt q.
  have d3 : set_tv s3 (Some tv) = (with_tv s3 (NArr (Nd [:: k; 1%N] (data tv))), Ok tt).
    rewrite /set_tv /meas_reshape /n_sensors /n_ts /= sh //= ds_ {1}/dim /= muln1.
    by rewrite /np_reshape /wild /known /fill /prodn /= !muln1 stv eqxx.
  rewrite d3; cbn [sbind]; set s4 := with_tv _ _.
  have d4 : set_lam s4 lam = (with_lam (with_dist s4 "u") lam, Ok tt).
    rewrite (@C56_lam_with_domain _ _ lam d) //; last by rewrite /arr_ok wl /ndim hl.
    have c2l : col2 lam = lam by rewrite /col2 /ndim hl.
    by rewrite c2l {1}/dim hl /= {1}/dim hd /= eqxx.
  rewrite d4; cbn [sbind].
  have d2 : data_2d dat = Ok dat by rewrite /data_2d /ndim ha.
  by rewrite (set_dataE _ d2) /= !sh //= ds_ /dim ha /= mul1n eqxx.
rewrite /load_poisson_prob /load_with el.
have nk : n_sensors s8 = Ok k by rewrite /n_sensors /= /shape0 eqn0Ngt ns ds_.
have nt : n_ts s8 = Ok 1%N by [].
have := @C94_adds_noise R G reseed randn size_randn s8 g None (Some (sd05 R)) seed (Nd [:: k; 1%N] (data tv)) (sd05 R) k 1 g1 erefl erefl nk nt.
rewrite /= stv muln1 => /(_ erefl k0 eg) ->.
by cbn [rbind]; rewrite /noisy_col stv.
Qed.

(** Sensors with any number of dimensions, several times, a reference: load_adcirc_prob. *)
Theorem C122_adcirc_loads ds sd seed g g1 n p k t d se ti lr tv lam dat :
  ~~ has_key ds "std_dev" -> ~~ has_key ds "measurements" -> ~~ has_key ds "sensors" ->
  ~~ has_key ds "sample_dist" ->
  lookup ds "domain" = Some (VArr d) -> lookup ds "times" = Some (VArr ti) ->
  lookup ds "lam_ref" = Some (VArr lr) ->
  lookup ds "true_vals" = Some (VArr tv) -> lookup ds "lam" = Some (VArr lam) ->
  lookup ds "data" = Some (VArr dat) ->
  nd_wf d -> Nd.shape d = [:: p; 2%N] ->
  size (data lr) = p -> (forall i, (i < p)%N -> ent d i 0 <= nth 0 (data lr) i <= ent d i 1) ->
  (0 < ndim se)%N -> dim se 0 = k -> (0 < ndim ti)%N -> dim ti 0 = t -> (0 < k * t)%N ->
  size (data tv) = (k * t)%N -> nd_wf lam -> Nd.shape lam = [:: n; p] -> nd_wf dat ->
  Nd.shape dat = [:: n; (k * t)%N] ->
  (if seed is Some q then reseed q else Ok g) = Ok g1 ->
  adcirc (Ok ds) sd seed se g =
    ((randn (k * t) g1).2,
     Ok (ds, ST (Some d) (Some lam) (Some (data lr)) (Some dat)
               (Some (NArr (noisy_col (data tv) (randn (k * t) g1).1)))
               (Some (NArr (Nd [:: (k * t)%N; 1%N] (data tv)))) (Some "u"%string) (Some se) (Some ti)
               (Some (5%:R / 100%:R)))).
Proof.
rewrite /has_key => h1 h2 h4 h5 e1 e2 e6 e3 e4 e5 wd hd slr inl ns ds_ nti dti k0 stv wl hl wa ha eg.
have n1 : lookup ds "std_dev" = None by case: (lookup ds "std_dev") h1.
have n2 : lookup ds "measurements" = None by case: (lookup ds "measurements") h2.
have n4 : lookup ds "sensors" = None by case: (lookup ds "sensors") h4.
have n5 : lookup ds "sample_dist" = None by case: (lookup ds "sample_dist") h5.
set s8 := ST (Some d) (Some lam) (Some (data lr)) (Some dat) None
               (Some (NArr (Nd [:: (k * t)%N; 1%N] (data tv)))) (Some "u"%string) (Some se) (Some ti) (Some (sd05 R)).
have el : load (st0 R) ds (adcirc_names se) = (s8, Ok tt).
  rewrite /load /fields; cbn [load_loop]; rewrite /get_set_val n1 n2 n4 n5 e1 e2 e3 e4 e5 e6.
  cbn [adcirc_names String.eqb Ascii.eqb Bool.eqb sbind]; rewrite /set_field.
  cbn [String.eqb Ascii.eqb Bool.eqb sbind].
  rewrite e1 e2 e3 e4 e5 e6.
  have dw : dom_wf d by rewrite /dom_wf wd hd /dim hd /= eqxx.
  have d0 : set_domain (st0 R) d = (with_dom (st0 R) d, Ok tt) by rewrite /set_domain (reshape2_id dw).
  rewrite d0; cbn [sbind].
  set s1 := with_times _ _.
  have -> : set_lref s1 lr = (with_lref s1 (data lr), Ok tt).
    have [c1 c2 _ _ _] := C57_accepts_iff s1 lr.
    have e : (set_lref s1 lr).2 = Ok tt.
      by apply/c1; exists d; rewrite slr; split=> //; rewrite /dim hd.
    by rewrite [LHS]surjective_pairing e c2.
  cbn [sbind]; set s3 := with_sd _ _.
  have sh b : (0 < ndim b)%N -> @shape0 R b = Ok (dim b 0) by move=> q; rewrite /shape0 eqn0Ngt q.
  have d3 : set_tv s3 (Some tv) = (with_tv s3 (NArr (Nd [:: (k * t)%N; 1%N] (data tv))), Ok tt).
    rewrite /set_tv /meas_reshape /n_sensors /n_ts /= !sh //= ds_ dti.
    by rewrite /np_reshape /wild /known /fill /prodn /= !muln1 stv eqxx.
  rewrite d3; cbn [sbind]; set s4 := with_tv _ _.
  have d4 : set_lam s4 lam = (with_lam (with_dist s4 "u") lam, Ok tt).
    rewrite (@C56_lam_with_domain _ _ lam d) //; last by rewrite /arr_ok wl /ndim hl.
    have c2l : col2 lam = lam by rewrite /col2 /ndim hl.
    by rewrite c2l {1}/dim hl /= {1}/dim hd /= eqxx.
  rewrite d4; cbn [sbind].
  have d2 : data_2d dat = Ok dat by rewrite /data_2d /ndim ha.
  by rewrite (set_dataE _ d2) /= !sh //= ds_ dti /dim ha /= mulnC eqxx.
rewrite /load_adcirc_prob /load_with el.
have nk : n_sensors s8 = Ok k by rewrite /n_sensors /= /shape0 eqn0Ngt ns ds_.
have nt : n_ts s8 = Ok t by rewrite /n_ts /= /shape0 eqn0Ngt nti dti.
have := @C94_adds_noise R G reseed randn size_randn s8 g None (Some (sd05 R)) seed (Nd [:: (k * t)%N; 1%N] (data tv)) (sd05 R) k t g1 erefl erefl nk nt.
rewrite /= stv => /(_ erefl k0 eg) ->.
by cbn [rbind]; rewrite /noisy_col stv.
Qed.

(** Without true values there is nothing to make measurements from. *)
Lemma set_field_tv (s : st) f v : f <> "true_vals"%string -> s_tv (set_field s f v).1 = s_tv s.
Proof.
move=> /String.eqb_neq n1; rewrite /set_field n1.
case: ifP => _; first by case: v => [|a|x|x] //; rewrite /set_dist; case: ifP.
have sdom (a : nd) (s' : st) : s_tv (set_domain s' a).1 = s_tv s' by rewrite /set_domain; case: (rbind _ _).
case: ifP => _; first by case: v => [|a|x|x].
case: ifP => _; first by case: v.
case: ifP => _; first by case: v.
case: ifP => _.
  have sl (a : nd) : s_tv (set_lref s a).1 = s_tv s by rewrite /set_lref; case: (s_dom s) => // d; case: (lref_check _ _).
  case: v => [|a|x|x] //; by case: (s_dom s) => [dd|] //; case: ifP.
case: ifP => _; first by case: v.
case: ifP => _.
  by case: v => [|a|x|x] //; rewrite /set_meas; case: (meas_reshape _ _).
case: ifP => _.
  case: v => [|a|x|x]; try by case: (s_dom s).
  rewrite /set_lam; case: (if _ then _ else _) => [lam|e] //.
  set r := match s_dom s with Some _ => _ | None => _ end.
  have : s_tv r.1 = s_tv s by rewrite /r; case: (s_dom s) => [d|] //; case: (bounds_of lam).
  case: r => s' [[]|e] //=; case: (s_dist s') => [x|] //=.
case: ifP => _ //; case: v => [|a|x|x] //.
case ed : (data_2d a) => [d|e]; last by rewrite /set_data ed.
rewrite (set_dataE _ ed); case: (s_sens s) => [se|]; case: (s_times s) => [ti|] //.
- by case: (shape0 ti) => // t; case: (shape0 se) => // k; case: ifP.
- by case: (shape0 se) => // k; case: ifP.
- by case: (shape0 ti) => // k; case: ifP.
Qed.

Lemma load_loop_tv (ds : dset) names fs (s : st) : names "true_vals"%string = NName R "true_vals" -> ~~ has_key ds "true_vals" ->
  s_tv (load_loop ds names fs s).1 = s_tv s.
Proof.
move=> hn hk; elim: fs s => [//|f fs ih] s; cbn [load_loop].
have hg : s_tv (get_set_val ds s f (names f)).1 = s_tv s.
  rewrite /get_set_val; case: (String.eqb_spec f "true_vals") => [->|nf].
    by rewrite hn; move: hk; rewrite /has_key; case: (lookup ds "true_vals").
  have sf := fun v => set_field_tv s v nf.
  case: (lookup ds f) => [v0|]; case: (names f) => [k|[|a|x|k]] //; by case: (lookup ds k).
by case: (get_set_val _ _ _ _) hg => s' [[]|e] //= <-; rewrite ih.
Qed.

Theorem C122_needs_true_vals ds sd seed sensors g : ~~ has_key ds "true_vals" ->
  is_ok (poisson (Ok ds) sd seed g).2 = false /\ is_ok (adcirc (Ok ds) sd seed sensors g).2 = false.
Proof.
move=> hk; have go names : names "true_vals"%string = NName R "true_vals" ->
    is_ok (load_with reseed randn names (Ok ds) seed g).2 = false.
  move=> hn; rewrite /load_with; have := @load_loop_tv ds names fields (st0 R) hn hk.
  rewrite -/(load _ _ _); case: (load _ _ _) => s [[]|e] //= ht.
  have h : ref_of s None = None \/ sd_of s (Some (sd05 R)) = None by left; rewrite /ref_of ht.
  by rewrite (C94_missing _ _ _ _ h).
by split; apply: go.
Qed.

(** *** What run_fenics returns can be loaded *)
Variable rand : nat -> G -> seq R * G.
Variable solve : seq R -> R -> R -> R.
Variable solve_gamma : R -> R -> R -> R.
Notation fenics := (run_fenics reseed rand solve solve_gamma).

Lemma size_flatten_rows (L : seq (seq R)) c : all (fun r => size r == c) L -> size (flatten L) = (size L * c)%N.
Proof. by elim: L => [//|r L ih] /= /andP [/eqP e a]; rewrite size_cat ih // e mulSn. Qed.

Theorem C122_pipeline ns nk mins maxs low high gamma seed u g g1 ds seed' g' g1' sd :
  fenics ns nk mins maxs low high gamma seed u g = (g1, Ok ds) -> 0 < nk ->
  (if seed' is Some q then reseed q else Ok g') = Ok g1' ->
  exists n k (sensors lams : seq (seq R)), [/\ ns = Posz n, nk = Posz k,
    size sensors = k /\ size lams = n,
    (forall l, l \in lams -> size l = size mins) /\ size maxs = size mins &
    let tv := [seq solve_gamma gamma (nth 0 s 0) (nth 0 s 1) | s <- sensors] in
    poisson (Ok ds) sd seed' g' = ((randn k g1').2,
     Ok (ds, ST (Some (nd2 2 [seq [:: p.1; p.2] | p <- zip mins maxs])) (Some (nd2 (size mins) lams)) None
       (Some (nd2 k [seq [seq solve l (nth 0 s 0) (nth 0 s 1) | s <- sensors] | l <- lams]))
       (Some (NArr (noisy_col tv (randn k g1').1))) (Some (NArr (Nd [:: k; 1%N] tv)))
       (Some "u"%string) (Some (nd2 2 sensors)) (Some (arr0 R)) (Some (5%:R / 100%:R))))].
Proof.
rewrite /run_fenics; case: (if seed is Some q then _ else _) => [g2|] //.
case: eqP => // sm; case: nk => // k; case: (rand (k * 2) g2) => z g3.
case: ns => // n; case: (rand _ g3) => z' g4 [_ eds] k0 eg.
set sensors := uniform_rows _ _ k z in eds; set lams := uniform_rows mins maxs n z' in eds.
have ssz : size sensors = k by rewrite size_mkseq.
have lsz : size lams = n by rewrite size_mkseq.
have asz : all (fun r => size r == 2%N) sensors.
  by apply/allP => r /mapP [j _ ->]; rewrite size_mkseq.
have alz : all (fun r => size r == size mins) lams.
  by apply/allP => r /mapP [j _ ->]; rewrite size_mkseq.
exists n, k, sensors, lams; split=> //; first by split=> // l hl; apply/eqP; apply: (allP alz).
set tv := [seq _ | s <- sensors].
have stv : size tv = k by rewrite size_map.
have az : all (fun r => size r == 2%N) [seq [:: p.1; p.2] | p <- zip mins maxs].
  by apply/allP => r /mapP [j _ ->].
have szz : size (zip mins maxs) = size mins by rewrite size_zip -sm minnn.
have sl : [seq solve l (nth 0 s 0) (nth 0 s 1) | l <- lams, s <- sensors] =
     flatten [seq [seq solve l (nth 0 s 0) (nth 0 s 1) | s <- sensors] | l <- lams] by [].
have r1 : nd2 2 [seq [:: p.1; p.2] | p <- zip mins maxs] = Nd [:: size mins; 2%N] (flatten [seq [:: p.1; p.2] | p <- zip mins maxs]).
  by rewrite /nd2 size_map szz.
have r2 : nd2 (size mins) lams = Nd [:: n; size mins] (flatten lams) by rewrite /nd2 lsz.
have r3 : nd2 k [seq [seq solve l (nth 0 s 0) (nth 0 s 1) | s <- sensors] | l <- lams] =
    Nd [:: n; k] [seq solve l (nth 0 s 0) (nth 0 s 1) | l <- lams, s <- sensors].
  by rewrite /nd2 size_map lsz.
have r4 : nd2 2 sensors = Nd [:: k; 2%N] (flatten sensors) by rewrite /nd2 ssz.
rewrite r1 r2 r3 r4 -eds.
apply: (@C122_poisson_loads _ sd seed' g' g1' n (size mins) k _ _ (Nd [:: k; 1%N] tv)) => //.
- by rewrite /nd_wf /= /prodn /= muln1 (size_flatten_rows az) size_map szz.
- by rewrite /nd_wf /= /prodn /= muln1 (size_flatten_rows alz) lsz.
- by rewrite /nd_wf /= /prodn /= muln1 size_allpairs lsz ssz.
Qed.
End StExProps.
