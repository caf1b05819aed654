(** Properties C39, C40, C43, C44 of DensityProblem. *)
Set Warnings "-notation-overridden,-ambiguous-paths".
From mathcomp Require Import all_ssreflect all_algebra.
From mathcomp.algebra_tactics Require Import ring.
From Verif Require Import Py Nd Xnum XnumProofs UtilModel DensityModel NdProofs LinProps DensityProps DensityProps2.
Set Implicit Arguments. Unset Strict Implicit. Unset Printing Implicit Defensive.
Import Order.Theory GRing.Theory Num.Theory.
Local Open Scope ring_scope.

Section DensityProps3.
Variable R : rcfType.
Notation xnum := (xnum R).
Notation nd := (nd R).
Variables (D KW BW : Type).
Variable pdf : D -> KW -> nd -> res (pdfval xnum).
Variable nokw : KW.
Variable nobw : BW.
Variable uniform : seq R -> seq R -> D.
Variable norm01 : D.
Variable kde : nd -> BW -> seq xnum -> res D.
Variable kde_pdf : D -> nd -> res (seq xnum).
Variable trunc : R -> R.
Notation dprob := (dprob R D).
Notation pargs := (pargs R D KW BW).
Notation dop := (dop R D KW BW).
Notation no_args := (no_args R D nokw nobw).
Notation set_observed := (set_observed pdf nokw norm01).
Notation set_initial := (set_initial pdf nokw uniform).
Notation set_predicted := (set_predicted pdf kde kde_pdf).
Notation fit := (fit pdf nokw uniform norm01 kde kde_pdf).
Notation mud_point := (mud_point pdf nokw nobw uniform norm01 kde kde_pdf).
Notation expected_ratio := (expected_ratio pdf nokw nobw uniform norm01 kde kde_pdf).
Notation init := (density_init D trunc).
Notation run1 draw := (run1 pdf nokw nobw uniform norm01 kde kde_pdf trunc draw).
Notation run draw := (run pdf nokw nobw uniform norm01 kde kde_pdf trunc draw).
Notation all_return draw := (all_return pdf nokw nobw uniform norm01 kde kde_pdf trunc draw).

Notation nthx := (nth (NaN : xnum)).
Notation plot := (plot_param_space pdf nokw nobw uniform norm01 kde kde_pdf trunc).
Notation ensure_up := (ensure_up pdf nokw nobw uniform norm01 kde kde_pdf).


(** ** C39: weights *)
Lemma prod_rows k n (W : 'M[R]_(k, n)) (w : nd) (j : 'I_n) : holds2 w W ->
  \prod_(r <- rows w) nth 0 r j = \prod_i W i j.
Proof.
move=> [sw hw]; have d0 : dim w 0 = k by rewrite /dim sw.
have d1 : dim w 1 = n by rewrite /dim sw.
rewrite (big_nth [::]) size_rows d0 big_mkord; apply: eq_bigr => i _.
by rewrite nth_rows ?d0 ?d1 // -hw.
Qed.

(** Stacked weights: the product over the stack, divided by its 2-norm if asked for. *)
Theorem C39_weights_product (s : dprob) k n (W : 'M[R]_(k, n)) (w : nd) (norm : bool) :
  holds2 w W -> n_samples s = n ->
  let p := fun j => \prod_i W i j in
  let c := Num.sqrt (\sum_j p j ^+ 2) in
  exists s', [/\ set_weights s (Some w) norm = (s', Ok tt), d_up s' = None, d_pr s' = None &
    d_w s' = [seq (if norm then xdiv (Fin (p j)) (Fin c) else Fin (p j)) | j <- enum 'I_n]].
Proof.
move=> hw en p c; have [sw _] := hw.
have d1 : dim w 1 = n by rewrite /dim sw.
rewrite /set_weights /ndim sw /= d1 en eqxx /=.
have -> : weight_prod n (rows w) = [seq p j | j <- enum 'I_n].
  rewrite /weight_prod -val_enum_ord -map_comp; apply: eq_map => j /=.
  exact: prod_rows.
have -> : norm2 [seq p j | j <- enum 'I_n] = c by rewrite /norm2 big_map big_enum.
by case: norm; eexists; split; rewrite //= -map_comp.
Qed.

(** A flat list is one layer of weights. *)
Theorem C39_weights_list (s : dprob) (ws : seq R) (norm : bool) : size ws = n_samples s ->
  exists s', [/\ set_weights s (Some (nd1 ws)) norm = (s', Ok tt), d_up s' = None, d_pr s' = None &
    d_w s' = [seq (if norm then xdiv (Fin x) (Fin (norm2 ws)) else Fin x) | x <- ws]].
Proof.
move=> e; rewrite /set_weights /= /dim /= e eqxx /=.
have -> : weight_prod (n_samples s) (rows (Nd [:: 1%N; n_samples s] ws)) = ws.
  rewrite -e /rows /dim /= take_size /weight_prod.
  apply: (@eq_from_nth _ 0); first by rewrite size_map size_iota.
  move=> i; rewrite size_map size_iota => hi.
  by rewrite (nth_map 0%N) ?size_iota // nth_iota // big_cons big_nil mulr1.
by case: norm; eexists; split.
Qed.

(** No weights: one per parameter sample. *)
Theorem C39_default_weights (s : dprob) norm :
  exists s', [/\ set_weights s None norm = (s', Ok tt), d_up s' = None, d_pr s' = None &
    d_w s' = nseq (dim (dX s) 0) (Fin 1)].
Proof. by eexists; split. Qed.

(** Any other length is refused, and the object is unchanged. *)
Theorem C39_wrong_length (s : dprob) (w : nd) norm : (0 < ndim w)%N ->
  (if ndim w == 1%N then size (data w) else dim w 1) <> n_samples s ->
  set_weights s (Some w) norm = (s, Err AssertionError).
Proof.
rewrite /set_weights lt0n => /negbTE ->.
by case: ifP => [_|_]; case: eqP => // e h; case: h; rewrite e.
Qed.

(** ** C40: the scale of the weights *)
Definition scale_all (c : R) (s : seq xnum) := [seq xmul (Fin c) x | x <- s].

(** Two objects with the same densities, whose weights differ by the factor [c], both
    with everything set and nothing computed yet. *)
Definition same_but_weights (c : R) (s s' : dprob) : Prop :=
  [/\ [/\ dX s' = dX s, d_in s' = d_in s, d_pr s' = d_pr s & d_ob s' = d_ob s],
      [/\ d_in s <> None, d_pr s <> None & d_ob s <> None],
      d_up s = None /\ d_up s' = None & d_w s' = scale_all c (d_w s)].

Lemma fit_ready s a iv pr ob : d_in s = Some iv -> d_pr s = Some pr -> d_ob s = Some ob ->
  fit s a = sbind (s, xvbop (@xdiv R) ob pr) (fun s r =>
    sbind (put_r s r, (iw <- xvbop (@xmul R) iv (d_w s) ;; xvbop (@xmul R) iw r)) (fun s u =>
    (put_up s u, Ok tt))).
Proof.
move=> e1 e2 e3; rewrite /fit /fill_defaults e1 /= e2 /= e3 /= e3 e2 /=.
by rewrite /lift; case: (xvbop _ ob pr) => [r|] //=; rewrite e1.
Qed.

Lemma mud_ready s iv pr ob : d_up s = None ->
  d_in s = Some iv -> d_pr s = Some pr -> d_ob s = Some ob ->
  (mud_point s).2 = (r <- xvbop (@xdiv R) ob pr ;; iw <- xvbop (@xmul R) iv (d_w s) ;;
                     u <- xvbop (@xmul R) iw r ;; m <- argmax u ;; row_at (dX s) m).
Proof.
move=> e0 e1 e2 e3; rewrite /mud_point /ensure_up e0 (fit_ready _ e1 e2 e3) /=.
case: (xvbop _ ob pr) => [r|] //=; case: (xvbop _ iv _) => [iw|] //=.
by case: (xvbop _ iw r).
Qed.

Lemma ratio_ready s iv pr ob : d_up s = None ->
  d_in s = Some iv -> d_pr s = Some pr -> d_ob s = Some ob ->
  (expected_ratio s).2 = (r <- xvbop (@xdiv R) ob pr ;; iw <- xvbop (@xmul R) iv (d_w s) ;;
                     u <- xvbop (@xmul R) iw r ;; np_average r (d_w s)).
Proof.
move=> e0 e1 e2 e3; rewrite /expected_ratio /ensure_up e0 (fit_ready _ e1 e2 e3) /=.
case: (xvbop _ ob pr) => [r|] //=; case: (xvbop _ iv _) => [iw|] //=.
by case: (xvbop _ iw r).
Qed.

Lemma scale_r c (x y : xnum) : 0 < c -> xmul x (xmul (Fin c) y) = xmul (Fin c) (xmul x y).
Proof. by move=> c0; rewrite xmulC xmul_scaleA // xmulC [xmul y x]xmulC xmulC. Qed.

Lemma xvbop_scale_r c (u v : seq xnum) : 0 < c ->
  xvbop (@xmul R) u (scale_all c v) = rmap (scale_all c) (xvbop (@xmul R) u v).
Proof.
move=> c0; rewrite /xvbop /scale_all size_map; case: ifP => [e|_].
  rewrite /= -map_comp; congr Ok; elim: u v e => [|x u ih] [|y v] //= e.
  by rewrite scale_r // ih.
case: ifP => _; first by rewrite /= -!map_comp; congr Ok; apply: eq_map => y /=; rewrite scale_r.
case: ifP => // e; rewrite /= -map_comp; congr Ok; apply: eq_map => x /=.
by case: v e => [|y [|]] //= _; rewrite scale_r.
Qed.
Lemma xvbop_scale_l c (u v : seq xnum) : 0 < c ->
  xvbop (@xmul R) (scale_all c u) v = rmap (scale_all c) (xvbop (@xmul R) u v).
Proof.
move=> c0; rewrite /xvbop /scale_all size_map; case: ifP => [e|_].
  rewrite /= -map_comp; congr Ok; elim: u v e => [|x u ih] [|y v] //= e.
  by rewrite xmul_scaleA // ih.
case: ifP => [e|_].
  rewrite /= -map_comp; congr Ok; apply: eq_map => y /=.
  by case: u e => [|x [|]] //= _; rewrite xmul_scaleA.
by case: ifP => // e; rewrite /= -!map_comp; congr Ok; apply: eq_map => x /=; rewrite xmul_scaleA.
Qed.

Theorem C40_estimate_ignores_scale (c : R) s s' : 0 < c -> same_but_weights c s s' ->
  (mud_point s').2 = (mud_point s).2.
Proof.
move=> c0 [[eX e1 e2 e3] [n1 n2 n3] [u1 u2] ew].
case E1: (d_in s) n1 => [iv|] // _; case E2: (d_pr s) n2 => [pr|] // _.
case E3: (d_ob s) n3 => [ob|] // _.
rewrite (@mud_ready s iv pr ob) // (@mud_ready s' iv pr ob) ?e1 ?e2 ?e3 // ew eX.
case: (xvbop _ ob pr) => [r|] //=; rewrite xvbop_scale_r //.
case: (xvbop _ iv _) => [iw|] //=; rewrite xvbop_scale_l //.
by case: (xvbop _ iw r) => [u|] //=; rewrite argmax_scale.
Qed.

Lemma xadd_scale c (x y : xnum) : 0 < c ->
  xadd (xmul (Fin c) x) (xmul (Fin c) y) = xmul (Fin c) (xadd x y).
Proof.
move=> c0; have pp := scalePInf c0; have nn := scaleNInf c0.
by case: x y => [a| | |] [b| | |]; rewrite ?pp ?nn //= ?pp ?nn // mulrDr.
Qed.
Lemma xsum_scale c (s : seq xnum) : 0 < c -> xsum (scale_all c s) = xmul (Fin c) (xsum s).
Proof.
move=> c0; rewrite /xsum /scale_all; elim: s => [|x s ih] /=; first by rewrite mulr0.
by rewrite ih xadd_scale.
Qed.
Lemma xdiv_scale c (x : xnum) z : 0 < c -> z != 0 ->
  xdiv (xmul (Fin c) x) (Fin (c * z)) = xdiv x (Fin z).
Proof.
move=> c0 z0; have pp := scalePInf c0; have nn := scaleNInf c0.
have cz : c * z != 0 by rewrite mulf_neq0 // gt_eqF.
case: x => [a| | |]; rewrite ?pp ?nn //=; rewrite ?(negbTE z0) ?(negbTE cz) ?pmulr_rlt0 //.
by congr Fin; rewrite -mulf_div divff ?mul1r // gt_eqF.
Qed.

Lemma xsum_fin (ws : seq R) : xsum [seq Fin x | x <- ws] = Fin (\sum_(x <- ws) x).
Proof. by rewrite /xsum; elim: ws => [|x l ih] /=; rewrite ?big_nil // ih big_cons. Qed.

Theorem C40_ratio_ignores_scale (c : R) s s' ws : 0 < c -> same_but_weights c s s' ->
  d_w s = [seq Fin x | x <- ws] ->
  (expected_ratio s').2 = (expected_ratio s).2.
Proof.
move=> c0 [[eX e1 e2 e3] [n1 n2 n3] [u1 u2] ew] fw.
case E1: (d_in s) n1 => [iv|] // _; case E2: (d_pr s) n2 => [pr|] // _.
case E3: (d_ob s) n3 => [ob|] // _.
rewrite (@ratio_ready s iv pr ob) // (@ratio_ready s' iv pr ob) ?e1 ?e2 ?e3 // ew.
case: (xvbop _ ob pr) => [r|] //=; rewrite xvbop_scale_r //.
case: (xvbop _ iv _) => [iw|] //=; rewrite xvbop_scale_l //.
case: (xvbop _ iw r) => [u|] //=.
rewrite /np_average size_map xsum_scale // fw xsum_fin /= size_map; case: eqP => //= es.
have -> : [seq xmul p.1 p.2 | p <- zip r (scale_all c [seq Fin x | x <- ws])]
  = scale_all c [seq xmul p.1 p.2 | p <- zip r [seq Fin x | x <- ws]].
  rewrite /scale_all; elim: (r) (ws) => [|x l ih] [|z l'] //=.
  by rewrite ih; congr (_ :: _); apply: (scale_r x (Fin z) c0).
rewrite mulf_eq0 gt_eqF //=; case: eqP => //= z0.
by rewrite xsum_scale // xdiv_scale //; apply/eqP.
Qed.

(** Such objects arise when the weights are multiplied by [c], or normalised, before a
    given predicted distribution is set. *)
Lemma put_weights_of (s : dprob) w n s' : set_weights s w n = (s', Ok tt) ->
  s' = put_weights s (d_w s').
Proof. by move=> e; have := @weights_put R D s w n; rewrite e => /(_ isT). Qed.

Lemma predicted_given s a d w : pa_dist a = Some d -> pa_w a = None ->
  predicted_values pdf kde kde_pdf (put_weights s w) a = predicted_values pdf kde kde_pdf s a.
Proof. by rewrite /predicted_values => -> _. Qed.

Definition calls w n (a : pargs) dob : seq dop :=
  [:: OWeights D KW BW (Some w) n; OPredicted a; OObserved R KW BW dob].

Lemma calls_same c (s s1 s2 : dprob) draw w n w' n' (a : pargs) d dob :
  set_weights s (Some w) n = (s1, Ok tt) -> set_weights s (Some w') n' = (s2, Ok tt) ->
  d_w s2 = scale_all c (d_w s1) ->
  d_in s <> None -> pa_dist a = Some d -> pa_w a = None ->
  all_return draw s (calls w n a dob) ->
  same_but_weights c (run draw s (calls w n a dob)) (run draw s (calls w' n' a dob)).
Proof.
move=> e1 e2 ew in1 ed ea; rewrite /calls /DensityModel.run.
cbn [foldl DensityModel.run1 DensityModel.all_return]; rewrite e1 e2; cbn [fst snd].
rewrite (put_weights_of e1) (put_weights_of e2) ew.
rewrite /set_predicted ea; cbn [sbind]; rewrite !(predicted_given _ _ ed ea).
case: (predicted_values _ _ _ _ _) => [[k v]|//] /=; rewrite /set_observed /=.
by case: (rbind _ _) => [ob|] //= _; split.
Qed.

Theorem C40_multiplied_weights s draw (ws : seq R) (c : R) (a : pargs) d dob :
  0 < c -> d_in s <> None -> size ws = n_samples s ->
  pa_dist a = Some d -> pa_w a = None ->
  all_return draw s (calls (nd1 ws) false a dob) ->
  let s1 := run draw s (calls (nd1 ws) false a dob) in
  let s2 := run draw s (calls (nd1 [seq c * x | x <- ws]) false a dob) in
  (mud_point s2).2 = (mud_point s1).2 /\ (expected_ratio s2).2 = (expected_ratio s1).2.
Proof.
move=> c0 in1 ez ed ea ret s1 s2.
have [t1 [e1 _ _ w1]] := C39_weights_list false ez.
have ez' : size [seq c * x | x <- ws] = n_samples s by rewrite size_map.
have [t2 [e2 _ _ w2]] := C39_weights_list false ez'.
have ew : d_w t2 = scale_all c (d_w t1) by rewrite w1 w2 /scale_all -!map_comp.
have sb := calls_same e1 e2 ew in1 ed ea ret.
split; first exact: C40_estimate_ignores_scale c0 sb.
apply: (C40_ratio_ignores_scale (ws := ws) c0 sb).
move: ret; rewrite /calls /DensityModel.run; cbn [foldl DensityModel.run1 DensityModel.all_return]; rewrite e1; cbn [fst snd].
rewrite (put_weights_of e1) /set_predicted ea; cbn [sbind].
case: (predicted_values _ _ _ _ _) => [[k v]|//] /=; rewrite /set_observed /=.
by case: (rbind _ _).
Qed.

Theorem C40_normalised_weights s draw (ws : seq R) (a : pargs) d dob :
  d_in s <> None -> size ws = n_samples s -> has (fun x => x != 0) ws ->
  pa_dist a = Some d -> pa_w a = None ->
  all_return draw s (calls (nd1 ws) false a dob) ->
  let s1 := run draw s (calls (nd1 ws) false a dob) in
  let s2 := run draw s (calls (nd1 ws) true a dob) in
  (mud_point s2).2 = (mud_point s1).2 /\ (expected_ratio s2).2 = (expected_ratio s1).2.
Proof.
move=> in1 ez nz ed ea ret s1 s2.
have n0 : 0 < norm2 ws.
  rewrite /norm2 sqrtr_gt0; elim: (ws) nz => [//|x l ih] /= /orP [x0|/ih l0]; rewrite big_cons.
    by apply: ltr_paddr; [apply: sumr_ge0 => i _; apply: sqr_ge0 | rewrite lt_def sqrf_eq0 x0 sqr_ge0].
  by apply: ltr_paddl => //; apply: sqr_ge0.
have [t1 [e1 _ _ w1]] := C39_weights_list false ez.
have [t2 [e2 _ _ w2]] := C39_weights_list true ez.
have ew : d_w t2 = scale_all (norm2 ws)^-1 (d_w t1).
  rewrite w1 w2 /scale_all -!map_comp; apply: eq_map => x /=.
  by rewrite gt_eqF // mulrC.
have sb := calls_same e1 e2 ew in1 ed ea ret.
have c0 : 0 < (norm2 ws)^-1 by rewrite invr_gt0.
split; first exact: C40_estimate_ignores_scale c0 sb.
apply: (C40_ratio_ignores_scale (ws := ws) c0 sb).
move: ret; rewrite /calls /DensityModel.run; cbn [foldl DensityModel.run1 DensityModel.all_return]; rewrite e1; cbn [fst snd].
rewrite (put_weights_of e1) /set_predicted ea; cbn [sbind].
case: (predicted_values _ _ _ _ _) => [[k v]|//] /=; rewrite /set_observed /=.
by case: (rbind _ _).
Qed.

(** ** C43: the constructor *)
Theorem C43_given_domain (X y : nd) xi (d : nd) di norm pad : ndim X = 2%N -> ndim y = 2%N ->
  ndim d = 2%N ->
  init X y xi (Some d) di None norm pad =
  if dim d 0 == dim X 1 then
    Ok (DP X y d di (nseq (dim X 0) (Fin 1)) None None None None None None None None)
  else Err AssertionError.
Proof.
move=> h1 h2 h3; rewrite /density_init /set_shape h1 h2 h3 /= /guard.
by case: ifP.
Qed.

(** One-dimensional input: X is a single sample, y a single observable. *)
Theorem C43_flat_input (xs ys : seq R) xi d di w norm pad : 
  init (nd1 xs) (nd1 ys) xi d di w norm pad =
  init (Nd [:: 1%N; size xs] xs) (Nd [:: size ys; 1%N] ys) xi d di w norm pad.
Proof.
by rewrite /density_init /set_shape /ndim /= /np_reshape /wild /known /fill /= !dvd1n !divn1.
Qed.

(** Without a domain, the fitted domain (padded by a tenth whatever [pad_domain] is)
    contains every sample.  For an integer X, [trunc] must be monotone and keep the
    entries of X. *)
Theorem C43_fitted_domain (X y : nd) (xi norm : bool) (pad : R) (di : bool) :
  ndim X = 2%N -> ndim y = 2%N -> nd_wf X -> (0 < dim X 0)%N ->
  (xi -> {homo trunc : x y / x <= y} /\ {in data X, forall x, trunc x = x}) ->
  exists s0, [/\ init X y xi None di None norm pad = Ok s0, dX s0 = X, dy s0 = y &
   [/\ Nd.shape (ddom s0) = [:: dim X 1; 2%N],
      (forall i j, (i < dim X 0)%N -> (j < dim X 1)%N ->
       let row := nth [::] (rows (ddom s0)) j in let x := nth 0 (nth [::] (rows X) i) j in
       size row = 2%N /\ nth 0 row 0 <= x <= nth 0 row 1)
    & (~~ xi -> forall j, (j < dim X 1)%N ->
       let row := nth [::] (rows (ddom s0)) j in
       exists mn mx, [/\ mn \in column X j, mx \in column X j,
         {in column X j, forall x, mn <= x <= mx} &
         row = [:: mn - 10%:R^-1 * (mx - mn); mx + 10%:R^-1 * (mx - mn)]])]].
Proof.
move=> n2 m2 wf X0 ht; rewrite /density_init /set_shape n2 m2 /=.
rewrite /fit_domain /bounds_of eqn0Ngt X0; cbn [negb andb rbind].
set bs := [seq [:: np_min _; _] | j <- _].
have ab : all (fun r => size r == 2%N) bs by rewrite all_map; apply/allP.
have szb : size bs = dim X 1 by rewrite size_map size_iota.
have wfB : nd_wf (nd2 2 bs).
  rewrite /nd_wf /= size_flatten /seq.shape /prodn /= muln1.
  elim: (bs) ab => //= r l ih /andP [/eqP -> /ih /eqP ->].
  by rewrite mulSn.
have [B [eB wB sB rB]] := @fit_domain_boundsE R (cast_of trunc xi) (10%:R^-1) _ wfB erefl isT.
rewrite eB /=; eexists; split; [by []|by []|by []|] => /=.
rewrite rB rows_nd2 //; split; first by rewrite sB /= szb.
- move=> i j hi hj; rewrite (nth_map [::]) ?szb // /bs (nth_map 0%N) ?size_iota // nth_iota // add0n /=.
  split=> //; set x := nth 0 _ j.
  have xin : x \in column X j.
    by rewrite /x /column; apply/mapP; exists (nth [::] (rows X) i); rewrite ?mem_nth ?size_rows.
  have mn := np_min_le xin; have mx := np_max_ge xin.
  have mm : np_min (column X j) <= np_max (column X j) by apply: le_trans mn mx.
  have p0 : 0 <= 10%:R^-1 * (np_max (column X j) - np_min (column X j)).
    by rewrite mulr_ge0 ?invr_ge0 ?ler0n // subr_ge0.
  have l : np_min (column X j) - 10%:R^-1 * (np_max (column X j) - np_min (column X j)) <= x.
    by apply: le_trans mn; rewrite ler_subl_addr ler_addl.
  have u : x <= np_max (column X j) + 10%:R^-1 * (np_max (column X j) - np_min (column X j)).
    by apply: le_trans mx _; rewrite ler_addl.
  case: xi ht {eB rB} => [/(_ isT) [tm tf]|_] /=; last by rewrite l u.
  have tx : trunc x = x.
    apply: tf; rewrite /x nth_rows //; apply: mem_nth.
    move/eqP: wf => ->; move: n2; rewrite /ndim /dim in hi hj *.
    case: (Nd.shape X) hi hj => [|n [|p [|]]] //= hi hj _; rewrite /prodn /= muln1.
    by apply: leq_trans (leq_mul hi (leqnn _)); rewrite mulSn addnC ltn_add2r.
  by rewrite -tx !tm.
- move=> nx j hj; rewrite (nth_map [::]) ?szb // /bs (nth_map 0%N) ?size_iota // nth_iota // add0n /=.
  have c0 : (0 < size (column X j))%N by rewrite size_map size_rows.
  exists (np_min (column X j)), (np_max (column X j)); split.
  + exact: np_min_in.
  + exact: np_max_in.
  + by move=> x hx; rewrite np_min_le // np_max_ge.
  + by rewrite /cast_of (negbTE nx).
Qed.

(** ** C44: plotting *)
Lemma mud_base s : base_eq (mud_point s).1 s.
Proof.
have fb s1 a : base_eq (fit s1 a).1 s1.
  rewrite /fit /fill_defaults.
  set m1 := (match d_in s1 with Some _ => _ | None => _ end).
  have b1 : base_eq m1.1 s1.
    by rewrite /m1; case: (d_in s1) => //; rewrite /set_initial; case: (rbind _ _) => [[]|].
  case: m1 b1 => s2 [x|e] //= b1.
  set m2 := (match d_pr s2 with Some _ => _ | None => _ end).
  have b2 : base_eq m2.1 s2.
    rewrite /m2; case: (d_pr s2) => //; rewrite /set_predicted.
    have : base_eq (match pa_w a with Some w => set_weights s2 (Some w) false | None => (s2, Ok tt) end).1 s2.
      by case: (pa_w a) => [w|] //; apply: weights_base.
    case: (match pa_w a with Some _ => _ | None => _ end) => s3 [y|e] //= b.
    by case: (predicted_values _ _ _ _ _) => [[]|].
  case: m2 b2 => s3 [y|e] //= b2; last exact: base_trans b2 b1.
  set m3 := (match d_ob s3 with Some _ => _ | None => _ end).
  have b3 : base_eq m3.1 s3.
    by rewrite /m3; case: (d_ob s3) => //; rewrite /set_observed; case: (rbind _ _).
  have b := base_trans b3 (base_trans b2 b1).
  case: m3 b3 b => s4 [z|e] //= b3 b; rewrite /lift.
  by case: (xvbop _ _ _) => [r|e] //=; case: (rbind _ _).
rewrite /mud_point /ensure_up; case: (d_up s) => [u|] //=.
by have := fb s no_args; case: (fit s no_args) => s1 [].
Qed.

(** A plot with the default range widens the domain, whatever happens afterwards; the
    samples stay. *)
Theorem C44_default_range_widens draw s p a b c d : nd_wf (ddom s) -> ndim (ddom s) = 2%N ->
  (1 < dim (ddom s) 1)%N ->
  let s' := (plot draw s false p a b c d).1 in
  [/\ dX s' = dX s, dy s' = dy s, nd_wf (ddom s'), Nd.shape (ddom s') = Nd.shape (ddom s) &
      rows (ddom s') = [seq pad_row (cast_of trunc (d_int s)) p r | r <- rows (ddom s)]
      /\ d_int s' = d_int s].
Proof.
move=> wf n2 d2; have [B [eB wB sB rB]] := fit_domain_boundsE (cast_of trunc (d_int s)) p wf n2 d2.
rewrite /plot_param_space /fit_domain eB /=.
set s1 := DP _ _ _ _ _ _ _ _ _ _ _ _ _.
suff [bX bY bD bI] : base_eq (sbind (lift s1 (guard (d_in_dist s) AssertionError)) (fun s _ =>
  sbind (lift s (if a then draw 0%N s else Ok tt)) (fun s _ =>
  sbind (lift s (if b then draw 1%N s else Ok tt)) (fun s _ =>
  sbind (lift s (if c then draw 2%N s else Ok tt)) (fun s _ =>
  sbind (if d then sbind (mud_point s) (fun s _ => lift s (draw 3%N s)) else (s, Ok tt))
        (fun s _ => lift s (draw 4%N s))))))).1 s1.
  by rewrite bX bY bD bI; split=> //; rewrite /= ?wB.
rewrite /lift /=; case: (guard _ _) => //= _.
case: (if a then _ else _) => //= _; case: (if b then _ else _) => //= _.
case: (if c then _ else _) => //= _; case: d => //=; have := mud_base s1.
by case: (mud_point s1) => s2 [x'|e'] //= c2; case: (draw 3%N s2).
Qed.

(** With a given range and no MUD line the object is untouched. *)
Theorem C44_given_range_pure draw s p a b c : (plot draw s true p a b c false).1 = s.
Proof.
rewrite /plot_param_space /lift /=; case: (guard _ _) => //= _.
case: (if a then _ else _) => //= _; case: (if b then _ else _) => //= _.
by case: (if c then _ else _).
Qed.

(** [k] plots with the default range: each interval grows by the factor (1+2p)^k. *)
Theorem C44_repeated_plots draw s p a b c d k : nd_wf (ddom s) -> Nd.shape (ddom s) = [:: n_params s; 2%N] ->
  d_int s = false ->
  let s' := run draw s (nseq k (OPlot D KW BW false p a b c d)) in
  Nd.shape (ddom s') = [:: n_params s; 2%N] /\
  forall j, (j < n_params s)%N ->
  let lo := nth 0 (nth [::] (rows (ddom s)) j) 0 in
  let hi := nth 0 (nth [::] (rows (ddom s)) j) 1 in
  let g := ((1 + 2%:R * p) ^+ k - 1) / 2%:R * (hi - lo) in
  nth [::] (rows (ddom s')) j = [:: lo - g; hi + g].
Proof.
move=> wf sh ni; lazy zeta.
suff gen : [/\ nd_wf (ddom (run draw s (nseq k (OPlot D KW BW false p a b c d)))),
    Nd.shape (ddom (run draw s (nseq k (OPlot D KW BW false p a b c d)))) = [:: n_params s; 2%N],
    d_int (run draw s (nseq k (OPlot D KW BW false p a b c d))) = false &
    rows (ddom (run draw s (nseq k (OPlot D KW BW false p a b c d)))) =
    iter k (map (pad_row id p)) (rows (ddom s))].
  case: gen => _ gsh _ gen; split=> // j hj; set lo := nth 0 _ 0; set hi := nth 0 _ 1; rewrite gen {gen}.
  have sz : size (rows (ddom s)) = n_params s by rewrite size_rows /dim sh.
  have szi m : size (iter m (map (pad_row id p)) (rows (ddom s))) = n_params s.
    by elim: m => //= m ih; rewrite size_map.
  have row0 : nth [::] (rows (ddom s)) j = [:: lo; hi].
    have nd2 : ndim (ddom s) = 2%N by rewrite /ndim sh.
    have := all_size_rows wf nd2; move=> /(all_nthP [::]) /(_ j); rewrite sz => /(_ hj).
    rewrite /dim sh /= /lo /hi; case: (nth [::] _ j) => [|x [|y [|]]] //.
  elim: k {gsh} => [|k ih] /=.
    by rewrite row0 expr0 subrr !mul0r subr0 addr0.
  rewrite (nth_map [::]) ?szi // ih /= exprS; congr [:: _; _]; field; by rewrite ?pnatr_eq0.
elim: k => [|k [ih1 ih2 ih3 ih4]]; first by split.
rewrite -addn1 nseqD /DensityModel.run foldl_cat.
rewrite -/(DensityModel.run pdf nokw nobw uniform norm01 kde kde_pdf trunc draw s _).
set sk := DensityModel.run _ _ _ _ _ _ _ _ _ _ _ in ih1 ih2 ih3 ih4 *.
have n2 : ndim (ddom sk) = 2%N by rewrite /ndim ih2.
have d2 : (1 < dim (ddom sk) 1)%N by rewrite /dim ih2.
have [_ _ h1 h2 [h3 h4]] := C44_default_range_widens draw p a b c d ih1 n2 d2.
rewrite addn1; cbn [nseq ncons iter foldl DensityModel.run1].
by split; rewrite ?h2 ?h4 ?h3 ?ih3 //= ih4.
Qed.
End DensityProps3.
