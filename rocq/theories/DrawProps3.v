(** Properties C126, C127: contour plots of the functionals; time series plots. *)
Set Warnings "-notation-overridden,-ambiguous-paths".
From mathcomp Require Import all_ssreflect all_algebra.
From Coq Require Import String.
From mathcomp Require Import zify.
From Verif Require Import Py Nd Spec LinAlg Dmx DmxProofs LgpModel LgpTheory LgpProofs FunctionalProofs LinProps LinProps2 LinProps4 IterModel
  UtilModel UtilModel2 UtilProps2 NdProofs PlotModel StModel StProps StProps3 DrawModel DrawProps.
Set Implicit Arguments. Unset Strict Implicit. Unset Printing Implicit Defensive.
Import Order.Theory GRing.Theory Num.Theory.
Local Open Scope ring_scope.

Section DrawProps3.
Variable R : rcfType.
Notation nd := (nd R).
Notation dmx := (dmx R).
Notation lgp := (lgp R).
Notation art := (art R).

(** ** C126 *)
(** The n x n array whose entry (i, j) is g i j. *)
Definition is_array (n : nat) (X : seq (seq R)) (g : nat -> nat -> R) : Prop :=
  size X = n /\ forall i, (i < n)%N -> size (nth [::] X i) = n /\
    forall j, (j < n)%N -> nth 0 (nth [::] X i) j = g i j.
(** The parameter with entries x and y. *)
Definition pt2 (x y : R) : 'cV[R]_2 := \col_i (if i == 0 then x else y).

Lemma squareP n (v : seq R) : size v = (n * n)%N ->
  exists2 X, square (Posz n) v = Ok X & is_array n X (fun i j => nth 0 v (i * n + j)).
Proof.
move=> sv; rewrite /square sv eqxx; cbn [guard rbind].
eexists; first reflexivity; split; first by rewrite size_map size_iota.
move=> i hi; rewrite (nth_map 0%N) ?size_iota // nth_iota // add0n; split; first by rewrite size_map size_iota.
by move=> j hj; rewrite (nth_map 0%N) ?size_iota // nth_iota // add0n.
Qed.
Lemma is_array_eq n X g g' : (forall i j, (i < n)%N -> (j < n)%N -> g i j = g' i j) -> is_array n X g -> is_array n X g'.
Proof. by move=> e [h1 h2]; split=> // i hi; have [h3 h4] := h2 i hi; split=> // j hj; rewrite h4 ?e. Qed.

Lemma idx_lt n i j : (i < n)%N -> (j < n)%N -> (i * n + j < n * n)%N.
Proof. by move=> hi hj; apply: leq_trans (leq_mul hi (leqnn n)); rewrite mulSn addnC ltn_add2r. Qed.

Theorem C126_given_mesh (p : lgp) n (M : 'M[R]_(n * n, 2)) terms (f : 'cV[R]_2 -> R) r : (1 < n)%N ->
  compute_functionals p (Dmx M) terms = Ok (FArr (samplewise f M)) ->
  exists X Y Z, [/\ plot_fun_contours p (Some (Dmx M)) terms (Posz n) r = Ok [:: Contour X Y Z],
    is_array n X (fun i j => dget (Dmx M) (i * n + j) 0), is_array n Y (fun i j => dget (Dmx M) (i * n + j) 1) &
    is_array n Z (fun i j => f (pt2 (dget (Dmx M) (i * n + j) 0) (dget (Dmx M) (i * n + j) 1)))].
Proof.
move=> n1 ec; rewrite /plot_fun_contours; cbn [rbind]; rewrite ec; cbn [rbind].
have c0 : dcolumn (Dmx M) 0 = Ok [seq dget (Dmx M) i 0 | i <- iota 0 (n * n)] by [].
have c1 : dcolumn (Dmx M) 1 = Ok [seq dget (Dmx M) i 1 | i <- iota 0 (n * n)] by [].
rewrite c0 c1; cbn [rbind].
have s0 k : size [seq dget (Dmx M) i k | i <- iota 0 (n * n)] = (n * n)%N by rewrite size_map size_iota.
have [X -> hX] := squareP (s0 0%N); cbn [rbind]; have [Y -> hY] := squareP (s0 1%N); cbn [rbind].
have sz : size (samplewise f M) = (n * n)%N by rewrite size_map size_enum_ord.
have [Z -> hZ] := squareP sz; cbn [rbind].
case: (hZ) => -> _; rewrite n1; cbn [guard rbind]; exists X, Y, Z; split=> //.
- apply: is_array_eq hX => i j hi hj.
  by rewrite (nth_map 0%N) ?size_iota ?idx_lt // nth_iota ?idx_lt.
- apply: is_array_eq hY => i j hi hj.
  by rewrite (nth_map 0%N) ?size_iota ?idx_lt // nth_iota ?idx_lt.
apply: is_array_eq hZ => i j hi hj; have hk := idx_lt hi hj.
rewrite (nth_map (Ordinal hk)) ?size_enum_ord // (_ : nth _ _ _ = Ordinal hk); last first.
  by apply/val_inj; rewrite /= nth_enum_ord.
congr f; apply/matrixP => a b; rewrite !mxE.
case: eqP => [->|]; first by rewrite (dgetE M (Ordinal hk) 0).
move=> a0; rewrite (dgetE M (Ordinal hk) 1); congr (M _ _).
by case: a a0 => -[|[|a]] // ha; [move=> h; case: h; apply/val_inj | move=> _; apply/val_inj].
Qed.

(** The default mesh: n x n points evenly spaced on [0, r]^2. *)
Theorem C126_default_mesh (p : lgp) n terms (f : 'cV[R]_2 -> R) r : (1 < n)%N ->
  (forall k (X : 'M[R]_(k, 2)), compute_functionals p (Dmx X) terms = Ok (FArr (samplewise f X))) ->
  let x i : R := r * i%:R / n.-1%:R in
  exists X Y Z, [/\ plot_fun_contours p None terms (Posz n) r = Ok [:: Contour X Y Z],
    is_array n X (fun i j => x j), is_array n Y (fun i j => x i) &
    is_array n Z (fun i j => f (pt2 (x j) (x i)))].
Proof.
move=> n1 h x.
have [X0 [Y0 [pts [em sp np _ _]]]] := C51_points n r.
pose M : 'M[R]_(n * n, 2) := \matrix_(i, j) (if (j : nat) == 0%N then (nth (0, 0) pts i).1 else (nth (0, 0) pts i).2).
have eM : mesh_array pts = Dmx M.
  by rewrite /mesh_array /dbuild sp.
have [X [Y [Z [e hX hY hZ]]]] := C126_given_mesh r n1 (h _ M).
have g0 i j : (i < n)%N -> (j < n)%N -> dget (Dmx M) (i * n + j) 0 = x j.
  move=> hi hj; have hk := idx_lt hi hj; rewrite (dgetE M (Ordinal hk) 0) mxE /= np //=.
  by rewrite modnMDl modn_small // /tick;  rewrite gtn_eqF.
have g1 i j : (i < n)%N -> (j < n)%N -> dget (Dmx M) (i * n + j) 1 = x i.
  move=> hi hj; have hk := idx_lt hi hj; rewrite (dgetE M (Ordinal hk) 1) mxE /= np //=.
  rewrite divnMDl ?divn_small ?addn0 //; last by apply: leq_ltn_trans hj.
  by rewrite /tick;  rewrite gtn_eqF.
exists X, Y, Z; split.
- by move: e; rewrite /plot_fun_contours em; cbn [rbind snd]; rewrite eM.
- by apply: is_array_eq hX => i j hi hj; rewrite g0.
- by apply: is_array_eq hY => i j hi hj; rewrite g1.
- by apply: is_array_eq hZ => i j hi hj; rewrite g0 ?g1.
Qed.

(** One datum, two parameters: the functionals drawn. *)
Corollary C126_functionals (p : lgp) n (A : 'M[R]_(1, 2)) b y mu C S al r :
  inputs p A b y mu C al -> lcovo p = Dmx S -> row_free A -> posdef C -> posdef S -> (1 < n)%N ->
  let x i : R := r * i%:R / n.-1%:R in
  let d z := quad (invmx S) (A *m z + b - (y - b)) in
  let reg z := al * quad (invmx C) (z - mu) in
  let q z := al * quad (invmx (A *m C *m A^T)) (A *m (z - mu)) in
  (exists X Y Z, [/\ plot_fun_contours p None "dc" (Posz n) r = Ok [:: Contour X Y Z],
    is_array n X (fun i j => x j), is_array n Y (fun i j => x i) &
    is_array n Z (fun i j => let z := pt2 (x j) (x i) in d z + reg z - q z)]) /\
  (exists X Y Z, [/\ plot_fun_contours p None "bayes" (Posz n) r = Ok [:: Contour X Y Z],
    is_array n X (fun i j => x j), is_array n Y (fun i j => x i) &
    is_array n Z (fun i j => let z := pt2 (x j) (x i) in d z + reg z)]).
Proof.
move=> ip eS fA pC pS n1 x d reg q.
have uC := posdef_unit pC; have uS := posdef_unit pS.
have uP := predcov_unit fA pC; rewrite predcovE in uP.
have h k (Y : 'M[R]_(k, 2)) := cf_allE Y ip eS uS uC uP.
split.
  have [] := @C126_default_mesh p n "dc" (fun z => d z + reg z - q z) r n1.
    by move=> k X; have [_ _ _ ->] := h k X.
  by move=> X [Y [Z [e h1 h2 h3]]]; exists X, Y, Z.
have [] := @C126_default_mesh p n "bayes" (fun z => d z + reg z) r n1.
  by move=> k X; have [_ _ -> _] := h k X.
by move=> X [Y [Z [e h1 h2 h3]]]; exists X, Y, Z.
Qed.

(** More than one datum: ValueError, unless there are as many data as mesh points. *)
Theorem C126_many_data m (p : lgp) (A : 'M[R]_(m, 2)) b y mu C al terms n r :
  inputs p A b y mu C al -> (1 < m)%N -> (1 < n)%N -> m <> (n * n)%N ->
  plot_fun_contours p None terms (Posz n) r = Err ValueError.
Proof.
move=> ip m1 n1 mn; have [X0 [Y0 [pts [em sp _ _ _]]]] := C51_points n r.
rewrite /plot_fun_contours em; cbn [rbind snd].
have [M ->] : exists M : 'M[R]_(n * n, 2), mesh_array pts = Dmx M.
  by rewrite /mesh_array /dbuild sp; eexists.
rewrite (C74_many_observations_wrong_count M terms ip m1) //; last by move=> e; apply: mn.
by apply/eqP; rewrite neq_ltn orbC (leq_trans n1) // leq_pmulr // (ltn_trans _ n1).
Qed.

(** All terms at once cannot be drawn; nor can fewer than 2 x 2 values. *)
Theorem C126_all_terms (p : lgp) n (M : 'M[R]_(n * n, 2)) terms l r :
  compute_functionals p (Dmx M) terms = Ok (FTup l) ->
  plot_fun_contours p (Some (Dmx M)) terms (Posz n) r = Err AttributeError.
Proof.
move=> ec; rewrite /plot_fun_contours; cbn [rbind]; rewrite ec; cbn [rbind].
have c0 : dcolumn (Dmx M) 0 = Ok [seq dget (Dmx M) i 0 | i <- iota 0 (n * n)] by [].
have c1 : dcolumn (Dmx M) 1 = Ok [seq dget (Dmx M) i 1 | i <- iota 0 (n * n)] by [].
have s0 k : size [seq dget (Dmx M) i k | i <- iota 0 (n * n)] = (n * n)%N by rewrite size_map size_iota.
rewrite c0 c1; cbn [rbind].
by have [X -> _] := squareP (s0 0%N); cbn [rbind]; have [Y -> _] := squareP (s0 1%N).
Qed.
Theorem C126_small (p : lgp) mesh terms N r : N < 2 -> is_ok (plot_fun_contours p mesh terms N r) = false.
Proof.
move=> N2; rewrite /plot_fun_contours; case: (match mesh with Some _ => _ | None => _ end) => [m|] //; cbn [rbind].
case: (compute_functionals _ _ _) => [t|] //; cbn [rbind].
case: (dcolumn m 0) => [x|] //; cbn [rbind]; case: (square N x) => [X|] //; cbn [rbind].
case: (dcolumn m 1) => [y|] //; cbn [rbind]; case: (square N y) => [Y|] //; cbn [rbind].
case: t => [t|] //; cbn [rbind]; case: N N2 => [[|[|n]]|n] //= _; case: (_ == _) => //.
Qed.

(** ** C127 *)
(** The curves drawn are those of the first max_plot selected samples, in their order. *)
Theorem C127_plot_ts (s : st R) n p k t d lam se ti m sm tm i x Is T (mp : nat) :
  setup s n p k t d lam se ti -> Nd.shape se = [:: k; 2%N] -> s_meas s = Some (NArr m) ->
  picked n sm = Ok Is -> picked t tm = Ok T -> (0 < size T)%N -> meant k i x ->
  exists ts ms (curves : seq (seq R)),
  [/\ plot_ts s sm tm (Some i) (Posz mp) =
        Ok (OnCurrent (Points ts ms None) :: [seq Curve ts c | c <- curves]),
      size ts = size T /\ (forall j, (j < size T)%N -> nth 0 ts j = nth 0 (data ti) (nth 0%N T j)),
      size ms = size T /\ (forall j, (j < size T)%N -> nth 0 ms j = nth 0 (data m) (x * t + nth 0%N T j)),
      size curves = minn mp (size Is) &
      forall c, (c < minn mp (size Is))%N -> size (nth [::] curves c) = size T /\
        forall j, (j < size T)%N -> nth 0 (nth [::] curves c) j = ent d (nth 0%N Is c) (x * t + nth 0%N T j)].
Proof.
move=> su hse hm eI eT T0 hx.
have eX : picked k (Some (MInts [:: i])) = Ok [:: x].
  have := py_indexP k i; rewrite /picked /=; case: ifP => [_ [y -> hy]|e _]; last by case: hx; lia.
  by cbn [rbind]; congr (Ok [:: _]); case: hx hy; rewrite /meant; lia.
have := @C59_sample_data R s n p k t d lam se ti sm tm (Some (MInts [:: i])) su (fun _ => hse).
rewrite eI eT eX /= mul1n eqn0Ngt T0 /= => -[o [eo [[wl hl] _] [[wd hd] dd] hmm [hti _]]].
have [ms ems [sms nms]] : exists2 ms, sd_meas o = Some ms & size ms = size T /\
    forall j, (j < size T)%N -> nth 0 ms j = nth 0 (data m) (x * t + nth 0%N T j).
  case: hmm => [[]|[ms ems [sms nms]]]; first by rewrite hm.
  exists ms => //; split=> // j hj; have := nms 0%N j isT hj; rewrite mul0n add0n => ->.
  by rewrite /meas_at hm.
have [sts nts] : size (data (sd_times o)) = size T /\
    forall j, (j < size T)%N -> nth 0 (data (sd_times o)) j = nth 0 (data ti) (nth 0%N T j).
  case: tm eT hti {eo} => [tm|] eT hti; rewrite hti /=.
    by rewrite size_map; split=> // j hj; rewrite (nth_map 0%N).
  have {}eT : T = iota 0 t by case: eT.
  case: su => _ _ _ [_ [wt ht]] _; rewrite eT size_iota; split; last by move=> j hj; rewrite nth_iota ?add0n.
  by move: wt; rewrite /nd_wf => /eqP ->; case: ht => ->; rewrite /prodn /= ?muln1.
have sr : size (rows (sd_data o)) = size Is by rewrite size_rows /dim hd.
exists (data (sd_times o)), ms, (take (minn mp (size Is)) (rows (sd_data o))).
have rr c : (c < minn mp (size Is))%N -> nth [::] (take (minn mp (size Is)) (rows (sd_data o))) c = nth [::] (rows (sd_data o)) c.
  by move=> hc; rewrite nth_take.
split=> //.
- rewrite /plot_ts [omap _ _]/= eo; cbn [rbind]; rewrite ems; cbn [of_opt rbind]; rewrite sts sms eqxx; cbn [guard rbind].
  have -> : dim (sd_data o) 0 = size Is by rewrite /dim hd.
  have -> : (if Posz (size Is) < Posz mp then Posz (size Is) else Posz mp) = Posz (minn mp (size Is)).
    by case: ltP; lia.
  cbn [rbind]; congr (Ok (_ :: _)); apply: (@eq_from_nth _ (Colorbar R)).
    by rewrite !size_map size_iota size_take sr; case: (ltnP (minn mp (size Is)) (size Is)); lia.
  move=> c; rewrite size_map size_iota => hc.
  have hr : (c < size (rows (sd_data o)))%N by rewrite sr; lia.
  rewrite (nth_map 0%N) ?size_iota // nth_iota // add0n (nth_map [::]); last first.
    by rewrite size_take sr; case: (ltnP (minn mp (size Is)) (size Is)); lia.
  by rewrite rr.
- by rewrite size_take sr; case: (ltnP (minn mp (size Is)) (size Is)); lia.
move=> c hc; rewrite rr //; have hr : (c < size Is)%N by lia.
have sz : all (fun r => size r == size T) (rows (sd_data o)).
  by have := all_size_rows wd; rewrite /ndim hd => /(_ erefl); rewrite {1}/dim hd /=.
split; first by apply/eqP; apply: (all_nthP [::] sz); rewrite sr.
by move=> j hj; have := dd c 0%N j hr isT hj; rewrite mul0n add0n.
Qed.

(** Errors: a sensor that does not exist; sensors without coordinates (such as the default sensor);
    a negative number of curves; no measurements. *)
Theorem C127_errors (s : st R) n p k t d lam se ti sm tm i Is T mp :
  setup s n p k t d lam se ti -> picked n sm = Ok Is -> picked t tm = Ok T ->
  [/\ ~~ (- Posz k <= i < Posz k) -> Nd.shape se = [:: k; 2%N] -> plot_ts s sm tm (Some i) mp = Err IndexError,
      - Posz k <= i < Posz k -> Nd.shape se = [:: k] -> plot_ts s sm tm (Some i) mp = Err ValueError,
      mp < 0 -> is_ok (plot_ts s sm tm (Some i) mp) = false &
      s_meas s = None -> is_ok (plot_ts s sm tm (Some i) mp) = false].
Proof.
move=> su eI eT; split.
- move=> hi hse; have := py_indexP k i; rewrite (negbTE hi) => ei.
  have := @C59_sample_data R s n p k t d lam se ti sm tm (Some (MInts [:: i])) su (fun _ => hse).
  rewrite eI eT /picked /= ei; cbn [rbind] => e.
  by rewrite /plot_ts [omap _ _]/= e.
- move=> hi hse; have := py_indexP k i; rewrite hi => -[x ex _].
  have eX : resolve k (MInts [:: i]) = Ok [:: x] by rewrite /= ex.
  have := @C59_flat_sensors R s n p k t d lam se ti sm tm (MInts [:: i]) Is T [:: x] su hse eI eT eX.
  by rewrite /plot_ts [omap _ _]/= => ->.
- move=> h; rewrite /plot_ts; case: (sample_data _ _ _ _) => [o|] //; cbn [rbind].
  case: (sd_meas o) => [me|] //; cbn [of_opt rbind]; case: (_ == _) => //; cbn [guard rbind].
  rewrite ifF; last by lia.
  by case: mp h.
- move=> h; rewrite /plot_ts; case E: (sample_data _ _ _ _) => [o|] //; cbn [rbind].
  suff -> : sd_meas o = None by [].
  move: E; rewrite /sample_data h.
  case: (of_opt _ (s_data s)) => [d'|] //; cbn [rbind]; case: (of_opt _ (s_lam s)) => [l|] //; cbn [rbind].
  case: (n_samples s) => [n'|] //; cbn [rbind]; case: (n_sensors s) => [k'|] //; cbn [rbind].
  case: (n_ts s) => [t'|] //; cbn [rbind]; case: (_ == _) => //; cbn [guard rbind].
  case: (of_opt _ (s_times s)) => [ti'|] //; cbn [rbind]; case: (of_opt _ (s_sens s)) => [se'|] //; cbn [rbind].
  case: (if sm is Some _ then _ else _) => [si|] //; cbn [rbind].
  case: (if tm is Some _ then _ else _) => [tj|] //; cbn [rbind].
  case: (if tj is Some _ then _ else _) => [tt'|] //; cbn [rbind].
  cbn [omap obind oapp]; case: (rmap (@Some _) (resolve k' (MInts [:: i]))) => [xi|] //; cbn [rbind].
  case: (if xi is Some _ then _ else _) => [ss|] //; cbn [rbind].
  by case: (np_reshape _ _) => // a [<-].
Qed.
End DrawProps3.
