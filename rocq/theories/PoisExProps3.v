(** Property C132: run_2d_poisson_sol and the figures it draws. *)
Set Warnings "-notation-overridden,-ambiguous-paths".
From Coq Require Import String.
From mathcomp Require Import all_ssreflect all_algebra.
From mathcomp Require Import zify.
From mathcomp.algebra_tactics Require Import ring.
From Verif Require Import Py Nd Xnum XnumProofs UtilModel DensityModel NdProofs DensityProps3 UtilModel2 UtilProps
  StModel StProps StProps2 StProps3 StProps4 StProps5 DrawModel PoisModel PoisProps StExModel StExProps PoisExModel
  PoisExProps PoisExProps2.
Set Implicit Arguments. Unset Strict Implicit. Unset Printing Implicit Defensive.
Import Order.Theory GRing.Theory Num.Theory.
Local Open Scope ring_scope.

(** ** Selections *)
Theorem C132_wanted k plot_fig : wanted k plot_fig = true <-> List.In k plot_fig \/ List.In "all"%string plot_fig.
Proof.
have h q : has (String.eqb q) plot_fig = true <-> List.In q plot_fig.
  elim: plot_fig => [//|x l ih] /=; split.
    by move=> /orP [/String.eqb_eq ->|/ih]; [left|right].
  by move=> [->|/ih ->]; rewrite ?String.eqb_refl ?orbT.
by rewrite /wanted; split=> [/orP [/h|/h]|[/h ->|/h ->]]; rewrite ?orbT; [left|right|..].
Qed.

(** The sensors the default groups show: all of them, except, with more than 50, the last one. *)
Theorem C132_default_groups (idx_o : seq nat) :
  flatten [seq pyslice idx_o ab.1 ab.2 | ab <- default_groups] =
  (if (size idx_o <= 50)%N then idx_o else take (size idx_o).-1 idx_o) /\
  [seq pyslice idx_o ab.1 ab.2 | ab <- default_groups] =
  [:: take 5 idx_o; take 45 (drop 5 idx_o); drop 50 (take (size idx_o).-1 idx_o)].
Proof.
have sl A (l : seq A) (a b : nat) : pyslice l a b = take (b - a) (drop a l).
  rewrite /pyslice /slice_bound.
  case: (leqP a (size l)) => ha; first case: (leqP b (size l)) => hb //.
    rewrite [LHS]take_oversize ?size_drop // take_oversize ?size_drop //.
    by apply: leq_sub2r; exact: ltnW.
  rewrite drop_oversize // drop_oversize ?(ltnW ha) //.
have e3 : pyslice idx_o 50 (-1) = drop 50 (take (size idx_o).-1 idx_o).
  rewrite /pyslice -[(-1)%R]/(Negz 0) -[50%R]/(Posz 50) /slice_bound subn1.
  case: (leqP 50 (size idx_o)) => h; last first.
    by rewrite drop_size [RHS]drop_oversize // size_take; case: ifP => _; apply: leq_trans (ltnW h); rewrite ?leq_pred.
  rewrite take_drop; case: (leqP 50 (size idx_o).-1) => h'; first by rewrite subnK.
  rewrite !drop_oversize //; apply: leq_trans (_ : size idx_o <= 50)%N; rewrite ?size_take_min ?geq_minr //; move: h'; clear; lia.
have eq : [seq pyslice idx_o ab.1 ab.2 | ab <- default_groups] =
  [:: take 5 idx_o; take 45 (drop 5 idx_o); drop 50 (take (size idx_o).-1 idx_o)].
  by rewrite /default_groups /= !sl /= e3 subn0 drop0.
split; last exact: eq.
rewrite eq /= cats0 catA; have -> : take 5 idx_o ++ take 45 (drop 5 idx_o) = take 50 idx_o.
  by rewrite -[50%N]/(5 + 45)%N takeD.
case: (leqP (size idx_o) 50) => h.
  rewrite take_oversize // drop_oversize ?cats0 // size_take; case: ifP => _; apply: leq_trans h; rewrite ?leq_pred //.
rewrite -[RHS](cat_take_drop 50) take_take //.
by rewrite -ltnS prednK //; apply: leq_trans h.
Qed.

Section PoisExProps3.
Variable R : rcfType.
Notation xnum := (xnum R).
Notation nd := (nd R).
Variables (D KW BW : Type) (pdf : D -> KW -> nd -> res (pdfval xnum)) (nokw : KW) (nobw : BW)
  (uniform : seq R -> seq R -> D) (norm01 : D) (kde : nd -> BW -> seq xnum -> res D)
  (kde_pdf : D -> nd -> res (seq xnum)) (trunc : R -> R).
Variables (pca_components : nd -> int -> res nd) (svd_v : nd -> res nd).
Variables (G : Type) (reseed : int -> res G) (randn : nat -> G -> seq R * G).
Variables (H : Type) (pysample : nat -> H -> seq nat * H).
Variable curve : string -> D -> seq (R * R) -> int -> res (seq R * seq R).
Variable tri : seq R -> seq R -> seq R -> res unit.
Variable closest : R * R.
Variable field : dset R -> res (seq R * seq R * seq R).
Notation dprob := (dprob R D).
Notation mark := (mark R).
Notation pfig := (pfig R).
Notation estimate := (estimate pdf nokw nobw uniform norm01 kde kde_pdf).
Notation mud_problem := (st_mud_problem D trunc pca_components svd_v).
Notation param_plot := (param_plot pdf nokw nobw uniform norm01 kde kde_pdf trunc curve).
Notation run_sol := (run_2d_poisson_sol pdf nokw nobw uniform norm01 kde kde_pdf trunc pca_components svd_v
  reseed randn pysample curve tri closest field).
Notation poisson := (load_poisson_prob reseed randn).
Notation order_of := (sensor_order pysample).

(** ** Specification *)
(** A broken line through the points. *)
Notation line xs ys := (Art (Curve xs ys)).
(** The spline with the interior values [lam] at equally spaced places of [0, 1]. *)
Definition spline_line (lam : seq R) : mark :=
  line (mkseq (fun i => i%:R / (size lam).+1%:R) (size lam).+2) (0 :: rcons lam 0).
(** The sensors [l] as a group. *)
Definition group_of (se : nd) (color marker : string) (l : seq nat) : mark :=
  Group color marker [seq ent se x 0 | x <- l] [seq ent se x 1 | x <- l].
(** The response figure: the field with the groups of sensors, and the boundary data: the
    reference curve, the closest spline, the splines of the first 50 samples and the knots. *)
Definition response_axes (u : seq R * seq R * seq R) (se lam : nd) (p : nat) (idx_o : seq nat) (groups : seq (int * int))
    (markers colors : seq string) : seq (seq mark) :=
  [:: [:: Art (TriContour u.1.1 u.1.2 u.2); Art (Colorbar R)] ++
      [seq group_of se (nth ""%string colors i) (nth ""%string markers i)
             (pyslice idx_o (nth (0, 0) groups i).1 (nth (0, 0) groups i).2) | i <- iota 0 (size groups)];
      [:: line (mkseq (fun i => i%:R / 999%:R) 1000) (mkseq (fun i => g_true (i%:R / 999%:R)) 1000);
          spline_line [:: closest.1; closest.2]] ++
      [seq spline_line (row_of lam p i) | i <- iota 0 (minn 50 (dim lam 0))] ++
      [:: VLine "knot" (1 / 3%:R); VLine "knot" (2%:R / 3%:R)]].

(** ** The response figure *)
Lemma spline_markE lam : spline_mark lam = Ok (spline_line lam).
Proof.
rewrite /spline_mark /plot_solution_spline /linspace; cbn [rbind].
rewrite /spline_line; congr (Ok (line _ _)).
have [xs [ys [e [s1 _] hx _]]] := C114_drawn lam.
move: e; rewrite /plot_solution_spline /linspace; cbn [rbind] => -[exs _]; rewrite /= exs.
apply: (@eq_from_nth _ 0); first by rewrite s1 size_mkseq.
by move=> i; rewrite s1 ltnS => hi; rewrite (hx i hi).1 nth_mkseq.
Qed.
Lemma true_curveE : @true_curve R = Ok (line (mkseq (fun i => i%:R / 999%:R) 1000) (mkseq (fun i => g_true (i%:R / 999%:R)) 1000)).
Proof.
rewrite /true_curve /linspace; cbn [rbind].
have -> : [seq 0 + i%:R * ((1 - 0) / 1000.-1%:R) | i <- iota 0 1000] = mkseq (fun i => i%:R / 999%:R) 1000 :> seq R.
  by apply: eq_map => i; rewrite add0r subr0 mul1r.
by rewrite /mkseq -map_comp.
Qed.

Lemma rmapM_ok A B (f : A -> res B) (g : A -> B) (l : seq A) : (forall x, List.In x l -> f x = Ok (g x)) -> rmapM f l = Ok (map g l).
Proof.
elim: l => [//|x l ih] h; cbn [rmapM]; rewrite h ?ih //=; [by move=> y hy; apply: h; right | by left].
Qed.
Lemma rmapM_if A B (f : A -> res B) (g : A -> B) (b : A -> bool) e (l : seq A) :
  (forall x, List.In x l -> f x = if b x then Ok (g x) else Err e) -> rmapM f l = if all b l then Ok (map g l) else Err e.
Proof.
elim: l => [//|x l ih] h; cbn [rmapM all]; rewrite h; last by left.
case: (b x) => //; cbn [rbind andb]; rewrite ih; last by move=> y hy; apply: h; right.
by case: (all b l).
Qed.
Lemma In_mem (T : eqType) (x : T) l : List.In x l -> x \in l.
Proof. by elim: l => [//|y l ih] [->|/ih h]; rewrite inE ?eqxx ?h ?orbT. Qed.
Lemma scatterE (se : nd) k (l : seq nat) : nd_wf se -> Nd.shape se = [:: k; 2%N] -> all (fun i => (i < k)%N) l ->
  scatter_at se l = Ok ([seq ent se x 0 | x <- l], [seq ent se x 1 | x <- l]).
Proof.
move=> wf sh hl; rewrite /scatter_at /ndim sh; cbn [size]; rewrite /guard eqxx; cbn [rbind].
have := @picked_ints k l hl; rewrite /picked /resolve {1}/dim sh /= => ->; cbn [rbind].
by rewrite {1}/dim sh.
Qed.
Lemma pyslice_all (P : pred nat) l a b : all P l -> all P (pyslice l a b).
Proof.
move=> h; rewrite /pyslice; apply/allP => x /mem_take /mem_drop; exact: (allP h).
Qed.

(** C132: the response figure. *)
Theorem C132_response s ds idx_o groups markers colors u se lam (k n p : nat) :
  s_sens s = Some se -> nd_wf se -> Nd.shape se = [:: k; 2%N] -> all (fun i => (i < k)%N) idx_o ->
  s_lam s = Some lam -> nd_wf lam -> Nd.shape lam = [:: n; p] ->
  field ds = Ok u -> tri u.1.1 u.1.2 u.2 = Ok tt ->
  plot_response_ex tri closest field s ds idx_o groups markers colors =
  if (size groups <= size colors)%N && (size groups <= size markers)%N
  then Ok (response_axes u se lam p idx_o groups markers colors) else Err IndexError.
Proof.
move=> es wf sh hi el wl hl eu et; rewrite /plot_response_ex eu; cbn [rbind]; rewrite et; cbn [rbind].
rewrite es; cbn [of_opt rbind].
pose gr i := group_of se (nth ""%string colors i) (nth ""%string markers i)
             (pyslice idx_o (nth (0, 0) groups i).1 (nth (0, 0) groups i).2).
have ohd (T : Type) (x0 : T) (l : seq T) i : ohead (drop i l) = if (i < size l)%N then Some (nth x0 l i) else None.
  by elim: l i => [[]|x l ih [|i]] //=; rewrite ih.
have one p0 : List.In p0 (zip (iota 0 (size groups)) groups) -> draw_group se idx_o markers colors p0.1 p0.2 =
    if (p0.1 < size colors)%N && (p0.1 < size markers)%N then Ok (gr p0.1) else Err IndexError.
  move=> /In_mem h; have := h; move=> /(nthP (0%N, (0, 0))) [j]; rewrite size_zip size_iota minnn => hj.
  rewrite nth_zip ?size_iota // nth_iota // add0n => <-; cbn [fst snd].
  rewrite /draw_group (ohd _ ""%string) (ohd _ ""%string).
  case: ifP => _; cbn [of_opt rbind andb]; last by [].
  case: ifP => _; cbn [of_opt rbind]; last by [].
  by rewrite (scatterE wf sh) // pyslice_all.
rewrite (rmapM_if one).
have -> : all (fun p0 => (p0.1 < size colors)%N && (p0.1 < size markers)%N) (zip (iota 0 (size groups)) groups) =
  (size groups <= size colors)%N && (size groups <= size markers)%N.
  rewrite -(all_map fst (fun i => (i < size colors)%N && (i < size markers)%N)) -/(unzip1 _) unzip1_zip ?size_iota //.
  case: (size groups) => [//|q]; apply/allP/andP => [h|[h1 h2] i].
    by have := h q; rewrite mem_iota add0n ltnSn => /(_ isT) /andP [].
  by rewrite mem_iota add0n => /= hq; rewrite (leq_trans hq h1) (leq_trans hq h2).
case: ifP => // _.
cbn [rbind]; rewrite true_curveE; cbn [rbind]; rewrite spline_markE; cbn [rbind]; rewrite el; cbn [of_opt rbind].
have -> : rmapM (@spline_mark R) (take 50 (rows lam)) = Ok [seq spline_line r | r <- take 50 (rows lam)].
  by apply: rmapM_ok => r _; rewrite spline_markE.
cbn [rbind]; rewrite /response_axes; congr (Ok [:: _; _]).
  by congr (_ ++ _); rewrite map_comp -/(unzip1 _) unzip1_zip ?size_iota.
by congr (_ ++ (_ ++ _)); rewrite (rows_of wl hl) -map_take -map_comp take_iota /dim hl.
Qed.

(** ** The figure of the QoI *)
(** C132: the number of components: one axes for each of the first two, UnboundLocalError
    without any, and never a figure with more than two. *)
Theorem C132_components (P : dprob) (n : int) :
  match n with
  | Posz 0 | Negz _ => plot_qoi_ex tri P n = Err UnboundLocalError
  | Posz 1 => plot_qoi_ex tri P n = rmap (fun a => [:: map (@Art R) a]) (plot_params_2d tri (dX P) (dy P) 0 1 0 true true)
  | Posz 2 => plot_qoi_ex tri P n =
      (a <- plot_params_2d tri (dX P) (dy P) 0 1 0 true true ;; b <- plot_params_2d tri (dX P) (dy P) 0 1 1 true true ;;
       Ok [:: map (@Art R) a; map (@Art R) b])
  | _ => is_ok (plot_qoi_ex tri P n) = false /\
      (is_ok (plot_qoi_ex tri P 2) -> plot_qoi_ex tri P n = Err ValueError)
  end.
Proof.
rewrite /plot_qoi_ex; move: (plot_params_2d tri (dX P) (dy P) 0 1) => f.
case: n => [[|[|[|n]]]|n] //=.
- by case: (f _ _ _).
- by case: (f 0 _ _) => [a|] //=; case: (f _ _ _).
by case: (f 0 _ _) => [a|] //=; case: (f _ _ _).
Qed.

(** The axes of component [i]: the samples coloured by it, its contours, and the labels. *)
Definition qoi_axes (X y : nd) (i : nat) : seq mark :=
  [:: Art (Points (ncol X 0) (ncol X 1) (Some (ncol y i))); Art (TriContour (ncol X 0) (ncol X 1) (ncol y i));
      Art (TitleObservable R (i.+1 : nat)); Art (Colorbar R); Art (XLabelParam R 1); Art (YLabelParam R 2)].
Lemma qoi_figE (P : dprob) n : Nd.shape (dX P) = [:: n; 2%N] -> Nd.shape (dy P) = [:: n; 2%N] ->
  (forall i, (i < 2)%N -> tri (ncol (dX P) 0) (ncol (dX P) 1) (ncol (dy P) i) = Ok tt) ->
  plot_qoi_ex tri P 2 = Ok [:: qoi_axes (dX P) (dy P) 0; qoi_axes (dX P) (dy P) 1].
Proof.
move=> hx hy ht; have := C132_components P 2 => /= ->.
by rewrite /plot_params_2d /dim hx hy /= !eqxx /= !ht.
Qed.

(** ** The density figures *)
(** The intervals of a domain, each made longer by [q] times its length on both sides. *)
Definition stretched (q : R) (B : nd) : seq (R * R) :=
  [seq (ent B j 0 - q * (ent B j 1 - ent B j 0), ent B j 1 + q * (ent B j 1 - ent B j 0)) | j <- iota 0 (dim B 0)].
Lemma widened_intervals q B B' : widened q B B' -> intervals B' = stretched q B.
Proof.
move=> [w sh h]; rewrite /intervals /stretched.
apply: (@eq_from_nth _ (0, 0)); first by rewrite !size_map size_rows size_iota /dim sh.
move=> j; rewrite size_map size_rows {1}/dim sh -/(dim B 0) => hj.
by rewrite (nth_map [::]) ?size_rows ?{1}/dim ?sh // (nth_map 0%N) ?size_iota // nth_iota // add0n h.
Qed.

Definition density_axes (cin cup : seq R * seq R) (x : R) : seq mark :=
  [:: DensityCurve "in" cin.1 cin.2; DensityCurve "up" cup.1 cup.2; VLine "mud" x].
Lemma defaultE P m (idx : nat) cin cup : nd_wf (ddom P) -> ndim (ddom P) = 2%N -> dim (ddom P) 1 = 2%N -> d_int P = false ->
  d_up P <> None -> estimate P = (P, Ok m) -> size m = 2%N -> (idx < 2)%N ->
  curves_ok nobw kde curve P (stretched (5%:R / 100%:R) (ddom P)) idx cin cup ->
  exists2 B, param_plot P idx (pp0 R) = (put_dom P B, Ok (density_axes cin cup (nth 0 m idx))) &
    widened (5%:R / 100%:R) (ddom P) B.
Proof.
move=> wf n2 d2 ei eu em sm hi [d [r [w [k [ed er ew ek [c1 c2]]]]]].
have [B [eB wB]] := fitE trunc (5%:R / 100%:R) wf n2 d2 ei.
exists B => //; rewrite /PoisExModel.param_plot /pp0 /DensityModel.lift.
cbn [pp_range pp_in pp_up pp_win pp_mud pp_true pp_true_on pp_pad sbind]; rewrite eB; cbn [sbind put_dom d_in_dist].
rewrite ed (widened_intervals wB); cbn [of_opt sbind]; rewrite c1; cbn [rbind sbind].
rewrite /updated_kde; cbn [d_r d_w dX]; rewrite er ew; cbn [rbind]; rewrite ek; cbn [rbind]; rewrite c2; cbn [rbind sbind].
rewrite -/(put_dom P B) (estimate_up _ eu em); cbn [sbind].
by rewrite /at_idx /py_index sm /= hi.
Qed.

(** ** The whole run *)
(** Where figures are saved: the response surface and the QoI only if save_path is not empty, the
    densities also then (in the current directory). *)
Definition file_in (sp : option string) (name : string) : option string :=
  if sp is Some d then Some (if ((d =? "") || (d =? "."))%string then name else (d ++ "/" ++ name)%string) else None.
Definition nonempty (sp : option string) : option string :=
  if sp is Some d then if (d =? "")%string then None else Some d else None.
Definition fig_of (sp : option string) (cl : bool) (name : string) (axes : seq (seq mark)) : pfig :=
  PFig axes (file_in sp name) (if sp is Some _ then cl else false).
Lemma fig_ofE name sp cl a : saved name sp cl a = fig_of sp cl name a.
Proof. by rewrite /saved /fig_of /file_in /path_join; case: sp => [d|] //; case: ifP. Qed.
Lemma fig_of_truthyE name sp cl a : saved_truthy name sp cl a = fig_of (nonempty sp) cl name a.
Proof. by rewrite /saved_truthy fig_ofE; case: sp => [d|] //=; case: ifP. Qed.

(** C132: the run with the default densities.  What is asked for is drawn in the order: response
    surface, QoI, the two densities; the first density is drawn over the domain stretched by 5%, the
    second over the domain stretched by 10.5%, and so is the domain of the problem returned. *)
Theorem C132_run file sigma seed plot_fig sp cl order groups markers colors g h g1 ds s h1 idx_o
    u se lam (k n : nat) P P1 m r w d0 kd (cin cup : nat -> seq R * seq R) :
  poisson file sigma seed g = (g1, Ok (ds, s)) -> order_of order s h = (h1, Ok idx_o) ->
  s_sens s = Some se /\ nd_wf se /\ Nd.shape se = [:: k; 2%N] /\ all (fun i => (i < k)%N) idx_o ->
  s_lam s = Some lam /\ nd_wf lam /\ Nd.shape lam = [:: n; 2%N] ->
  (size groups <= size colors)%N -> (size groups <= size markers)%N ->
  field ds = Ok u -> tri u.1.1 u.1.2 u.2 = Ok tt ->
  mud_problem s "pca" None None 2 None None (Some (MInts (map Posz idx_o))) = Ok P ->
  nd_wf (ddom P) -> Nd.shape (ddom P) = [:: 2%N; 2%N] -> Nd.shape (dX P) = [:: n; 2%N] -> Nd.shape (dy P) = [:: n; 2%N] ->
  (forall i, (i < 2)%N -> tri (ncol (dX P) 0) (ncol (dX P) 1) (ncol (dy P) i) = Ok tt) ->
  estimate P = (P1, Ok m) -> size m = 2%N ->
  default_initial uniform P = Ok d0 -> d_r P1 = Some r -> xvbop (@xmul R) r (d_w P1) = Ok w -> kde (dX P) nobw w = Ok kd ->
  (forall i, (i < 2)%N -> let xr := stretched (nth 0 [:: 5%:R / 100%:R; 105%:R / 1000%:R] i) (ddom P) in
     curve "pdf" d0 xr i = Ok (cin i) /\ curve "kde" kd xr i = Ok (cup i)) ->
  exists P', [/\ run_sol file sigma seed plot_fig sp cl order groups markers colors (pp0 R) (pp0 R) g h =
    ((g1, h1),
     ((if wanted "response" plot_fig
       then [:: fig_of (nonempty sp) cl "response_surface" (response_axes u se lam 2 idx_o groups markers colors)] else [::])
      ++ (if wanted "qoi" plot_fig
          then [:: fig_of (nonempty sp) cl "learned_qoi" [:: qoi_axes (dX P) (dy P) 0; qoi_axes (dX P) (dy P) 1]] else [::])
      ++ (if wanted "densities" plot_fig
          then [:: fig_of sp cl "lam1" [:: density_axes (cin 0%N) (cup 0%N) (nth 0 m 0)];
                   fig_of sp cl "lam2" [:: density_axes (cin 1%N) (cup 1%N) (nth 0 m 1)]] else [::]),
      Ok (s, P'))),
    same_but_domain P1 P', estimate P' = (P', Ok m) &
    if wanted "densities" plot_fig then widened (105%:R / 1000%:R) (ddom P) (ddom P') else P' = P1].
Proof.
move=> el eo [es [ws [hs hi]]] [elam [wl hl]] gc gm eu et eP wf sh hX hY ht em sm ed er ew ek hc.
have [f1 f2 f3 f4 f5] := fresh eP.
have [[d ed' di] up1 _ [bX bY bD bI] em1] := estimate_fresh f1 f2 f3 f4 em.
move: ed'; rewrite ed => -[ed']; rewrite -ed' in di => {ed' d}.
have wf1 : nd_wf (ddom P1) by rewrite bD.
have n1 : ndim (ddom P1) = 2%N by rewrite bD /ndim sh.
have m1 : dim (ddom P1) 1 = 2%N by rewrite bD /dim sh.
have i1 : d_int P1 = false by rewrite bI.
have co1 : curves_ok nobw kde curve P1 (stretched (5%:R / 100%:R) (ddom P1)) 0 (cin 0%N) (cup 0%N).
  by exists d0, r, w, kd; rewrite bX bD; split=> //; apply: (hc 0%N isT).
have [B1 eB1 wB1] := @defaultE P1 m 0 _ _ wf1 n1 m1 i1 up1 em1 sm isT co1.
have [wf2 n2 m2] := widened_shape wB1; rewrite n1 in n2; rewrite m1 in m2.
have em2 := estimate_up B1 up1 em1.
have st2 : stretched (5%:R / 100%:R) B1 = stretched (105%:R / 1000%:R) (ddom P).
  have [B' [_ wB']] := @fitE R D trunc (put_dom P1 B1) (5%:R / 100%:R) wf2 n2 m2 i1.
  rewrite -(widened_intervals wB'); have := widened_twice wB1 wB'; rewrite bD.
  have -> : 5%:R / 100%:R + 5%:R / 100%:R * (1 + 5%:R / 100%:R + 5%:R / 100%:R) = 105%:R / 1000%:R :> R by field.
  exact: widened_intervals.
have co2 : curves_ok nobw kde curve (put_dom P1 B1) (stretched (5%:R / 100%:R) (ddom (put_dom P1 B1))) 1 (cin 1%N) (cup 1%N).
  change (ddom (put_dom P1 B1)) with B1; by rewrite st2; exists d0, r, w, kd; rewrite [dX _]bX; split=> //; apply: (hc 1%N isT).
have [B2 eB2 wB2] := @defaultE (put_dom P1 B1) m 1 _ _ wf2 n2 m2 i1 up1 em2 sm isT co2.
exists (if wanted "densities" plot_fig then put_dom P1 B2 else P1); split.
- rewrite /run_2d_poisson_sol el eo /positions eP em.
  have tl : density_figs pdf nokw nobw uniform norm01 kde kde_pdf trunc curve sp cl (pp0 R) (pp0 R) (wanted "densities" plot_fig) P1 =
    (if wanted "densities" plot_fig then [:: fig_of sp cl "lam1" [:: density_axes (cin 0%N) (cup 0%N) (nth 0 m 0)];
                   fig_of sp cl "lam2" [:: density_axes (cin 1%N) (cup 1%N) (nth 0 m 1)]] else [::],
     Ok (if wanted "densities" plot_fig then put_dom P1 B2 else P1)).
    rewrite /density_figs /step; case ew': (wanted "densities" plot_fig) => //.
    rewrite (eB1 : param_plot P1 0 (pp0 R) = _); cbn [rmap]; rewrite (eB2 : param_plot (put_dom P1 B1) 1 (pp0 R) = _); cbn [rmap].
    by rewrite !fig_ofE.
  rewrite /step (C132_response _ _ _ es ws hs hi elam wl hl eu et) gc gm; cbn [andb rmap].
  rewrite (@qoi_figE P1 n) ?bX ?bY //; cbn [rmap]; rewrite tl !fig_of_truthyE.
  by case: (wanted "response" _); case: (wanted "qoi" _).
- by case: ifP => // _; rewrite /same_but_domain /= put_dom_id.
- by case: ifP => // _; exact: estimate_up.
case ew': (wanted "densities" plot_fig) => //; have := widened_twice wB1 wB2; rewrite bD.
by have -> : 5%:R / 100%:R + 5%:R / 100%:R * (1 + 5%:R / 100%:R + 5%:R / 100%:R) = 105%:R / 1000%:R :> R by field.
Qed.

(** The noise only depends on the seed, the order "random" does not: whatever the seed, the
    sensors are taken in the order Python's generator gives in the state it is in. *)
Theorem C132_seed sigma sigma' q file g g' (s : st R) h k : n_sensors s = Ok k ->
  (poisson file sigma (Some q) g).2 = (poisson file sigma' (Some q) g').2 /\
  order_of "random" s h = ((pysample k h).2, Ok (pysample k h).1).
Proof.
move=> ek; split; last by rewrite /sensor_order ek /=; case: (pysample k h).
rewrite /load_poisson_prob /load_with; case: file => [ds|//]; case: (load _ _ _) => s0 [v|//].
rewrite /measurements_from_reference; case: (s_tv _) => [[tv|]|//]; case: (s_sd _) => [x|//]; rewrite /add_noise.
  case: (reseed q) => [g1|//]; case: (randn _ _) => z g2; case: (add_last _ _) => [y|//].
  by case: (set_meas _ _) => s1 [].
by case: (reseed q) => [g1|//]; case: (randn _ _) => z g2; case: (add_last _ _) => [y|//].
Qed.
End PoisExProps3.
