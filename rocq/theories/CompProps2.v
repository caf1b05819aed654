(** Property C141: the figures of run_comparison_example; C140 for the normal likelihood. *)
Set Warnings "-notation-overridden,-ambiguous-paths".
From Coq Require Import String ZArith.
From mathcomp Require Import all_ssreflect all_algebra.
From mathcomp.algebra_tactics Require Import ring.
From Verif Require Import Py Nd Xnum XnumProofs UtilModel DensityModel BayesModel UtilModel2 PlotModel PlotProps PlotProps2 NdProofs UtilProps
  BayesProps BayesProps2 StModel PoisModel StExModel PoisExModel PoisExProps2 SimpleModel SimpleProps CompModel CompProps.
Set Implicit Arguments. Unset Strict Implicit. Unset Printing Implicit Defensive.
Import Order.Theory GRing.Theory Num.Theory.
Local Open Scope ring_scope.

Section Props.
Variable R : rcfType.
Notation xnum := (xnum R).
Notation nd := (nd R).
Notation mark := (mark R).
Variable expf : R -> R.
Variable cpi : R.
Variable K : Type.
Variable kde : nd -> unit -> seq xnum -> res K.
Variable kde_pdf : K -> nd -> res (seq xnum).
Variable kde_at : K -> seq (seq R) -> res (seq R).
Variables trunc ln : R -> R.
Notation sdist := (sdist R K).
Notation dprob := (dprob R sdist).
Notation bprob := (bprob R sdist).
Notation spdf := (@spdf R expf cpi K kde_pdf).
Notation skde := (@skde R K kde).
Notation npdf := (@npdf R expf cpi).
Notation nval := (@nval R expf cpi).
Notation grid_pdf := (@grid_pdf R expf cpi K kde_pdf).
Notation grid_eval := (@grid_eval R K kde_at).
Notation pass := (@comparison_pass R expf cpi K kde kde_pdf trunc ln).
Notation solve := (@solve_pass R expf cpi K kde kde_pdf trunc ln).
Notation figs := (@figure_pass R expf cpi K kde kde_pdf kde_at trunc ln).
Notation run := (@run_comparison_example R expf cpi K kde kde_pdf kde_at trunc ln).
Notation poly := (@polynomial_1D_data R).
Notation mud := (@sd_mud R expf cpi K kde kde_pdf).
Notation map_pt := (@sb_map R expf cpi K kde_pdf ln).
Notation col xs := (Nd [:: size xs; 1%N] xs).
Notation cfig := (cfig R).

(** ** Densities of one variable *)
Lemma flat1 (pts : seq (seq R)) : all (fun p => size p == 1%N) pts ->
  flatten pts = [seq nth 0 p 0 | p <- pts].
Proof. by elim: pts => //= p pts ih /andP[]; case: p => [|x [|]] //= _ h; rewrite ih. Qed.

Lemma grid_pdf1 (d : sdist) (f : R -> xnum) (g : R -> R) : density1 expf cpi d = Some f ->
  (forall x, f x = Fin (g x)) -> density grid_pdf grid_eval 1 "pdf" d (fun p => g (nth 0 p 0)).
Proof.
move=> hd hf pts p0 hs /=; exists [seq [:: g (nth 0 p 0)] | p <- pts]; split; last first.
  by rewrite -map_comp; apply/eq_map => p /=; rewrite big_seq1.
have h1 : size (head [::] pts) = 1%N by case: (pts) p0 hs => //= p l _ /andP[/eqP].
rewrite /CompModel.grid_pdf h1 flat1 // (spdf_col kde_pdf hd) ?size_map //; cbn [rbind].
by rewrite -!map_comp; congr (Ok _); apply/eq_map => p /=; rewrite hf.
Qed.

Lemma normal_density m sigma : 0 < sigma ->
  density grid_pdf grid_eval 1 "pdf" (Nor [:: Fin m] sigma) (fun p => nval m sigma (nth 0 p 0)).
Proof. by move=> s0; apply: grid_pdf1 => // x; rewrite /npdf s0. Qed.

(** The density of the uniform distribution on [a, b]. *)
Definition uval (a b x : R) : R := if a <= x <= b then 1 / (b - a) else 0.
Lemma uniform_density a b : a < b ->
  density grid_pdf grid_eval 1 "pdf" (Uni [:: a] [:: b - a]) (fun p => uval a b (nth 0 p 0)).
Proof. by move=> ab; apply: grid_pdf1 => // x; rewrite /updf subr_gt0 ab addrC subrK. Qed.

(** The kernel density estimate k has the density f. *)
Definition estimates (k : K) (f : R -> R) : Prop :=
  forall pts, pts != [::] -> all (fun p => size p == 1%N) pts -> kde_at k pts = Ok [seq f (nth 0 p 0) | p <- pts].
Lemma est_density k f : estimates k f -> density grid_pdf grid_eval 1 "kde" (Est k) (fun p => f (nth 0 p 0)).
Proof. by move=> h pts p0 hs /=; apply: h. Qed.

(** ** The problems of a pass *)
Lemma pass_solve p ns mu sigma dom dint N u z :
  pass p ns mu sigma dom dint N u z =
  r <- solve p ns mu sigma dom dint N u z ;;
  d <- after (plot_param_space (@sd_pdf R expf cpi K kde_pdf) tt tt (@Uni R K) (@norm01 R K) skde (@skde_pdf R K kde_pdf) trunc
     (fun _ _ => Ok tt) r.1 false (5%:R / 100%:R) true true false false) ;; Ok (d, r.2).
Proof.
rewrite /comparison_pass /solve_pass; case: (poly _ _ _ _ _ _ _ _) => [t|//]; cbn [rbind].
case: (density_init _ _ _ _ _ _ _ _ _ _) => [d|//]; cbn [rbind].
case: (after _) => [d1|//]; cbn [rbind]; case: ((mud d1).2) => [x|//]; cbn [rbind].
case: (bayes_init _ _ _ _ _ _) => [b|//]; cbn [rbind]; case: (after _) => [b1|//]; cbn [rbind].
by case: ((map_pt b1).2).
Qed.

(** The posterior values, before normalisation. *)
Definition post (xs qs r data_ : seq R) (sigma : R) : seq xnum :=
  [seq xmul (updf (np_min r) (np_max r - np_min r) p.1) (xprod [seq npdf (Fin d) sigma p.2 | d <- data_]) | p <- zip xs qs].

Lemma map_state xs qs r data_ sigma B x : size qs = size xs -> r != [::] ->
  ready expf cpi xs qs r data_ sigma B -> (map_pt B).2 = Ok x -> b_ps (map_pt B).1 = Some (post xs qs r data_ sigma).
Proof.
move=> sq r0 [eX eD [e1 e2] e3 e4]; rewrite /sb_map /map_point e1 /bfit e2 /set_prior /default_prior eD.
cbn [dim Nd.shape nth]; rewrite size_eq0 (negbTE r0).
have -> : rows (Nd [:: 1%N; size r] r) = [:: r] by rewrite /rows /dim /= take_size.
cbn [map zip fst snd rbind]; rewrite eX (@spdf_col R expf cpi K kde_pdf (Uni [:: np_min r] [:: np_max r - np_min r]) _ _ _ (erefl _) (erefl _)); cbn [rbind].
rewrite prod_col; cbn [sbind b_ll b_pr b_log odflt oapp]; rewrite e3 e4 /combine.
rewrite xvbop_same; last by rewrite !size_map sq.
cbn [rbind bX].
have -> : [seq xmul p.1 p.2 | p <- zip [seq updf (np_min r) (np_max r - np_min r) x | x <- xs]
    [seq xprod [seq npdf (Fin d) sigma q | d <- data_] | q <- qs]] = post xs qs r data_ sigma.
  by rewrite /post; elim: (xs) (qs) => [|y l ih] [|q l'] //=; rewrite ih.
have sp : size (post xs qs r data_ sigma) = size xs by rewrite size_map size_zip sq minnn.
rewrite sp /dim /= eqxx; cbn [guard rbind].
by case: (~~ xzero _); cbn [guard rbind sbind b_ps bX snd fst DensityModel.lift].
Qed.

Lemma solve_state p ns mu sigma dom dint N u z D B :
  solve p ns mu sigma dom dint N u z = Ok (D, B) ->
  exists xs data_ k pr x, let qs := [seq x ^+ p | x <- xs] in
  exists rs up,
  [/\ size dom = 2%N, poly p ns 2 u mu sigma N z = Ok (col xs, Nd [:: size xs; 1%N] qs, data_),
      [/\ bX B = col xs, by_ B = Nd [:: size xs; 1%N] qs, bdom B = Nd [:: 1%N; 2%N] dom,
          b_ps B = Some (post xs qs dom data_ sigma) & map_pt B = (B, Ok x)],
      [/\ kde (Nd [:: size xs; 1%N] qs) tt (nseq (size xs) (Fin 1)) = Ok k,
          kde_pdf k (Nd [:: size xs; 1%N] qs) = Ok pr,
          xvbop (@xdiv R) [seq npdf (np_mean1 data_) sigma q | q <- qs] pr = Ok rs & size pr = size xs -> size rs = size xs] &
      D = DP (col xs) (Nd [:: size xs; 1%N] qs) (Nd [:: 1%N; 2%N] dom) dint (nseq (size xs) (Fin 1))
        (Some rs) (Some up) (Some [seq mk_prior dom x | x <- xs]) (Some pr)
        (Some [seq npdf (np_mean1 data_) sigma q | q <- qs]) (Some (Uni [:: np_min dom] [:: np_max dom - np_min dom])) (Some (Est k))
        (Some (Nor [:: np_mean1 data_] sigma))].
Proof.
rewrite /solve_pass; case P : (poly _ _ _ _ _ _ _ _) => [[[lam q] data_]|] //; cbn [rbind fst snd].
have sd2 : size dom = 2%N.
  by have [] := C116_errors p ns (size dom) u mu sigma N z; rewrite P /= => /esym/andP [/eqP].
have [xs [sn [el eq] hx sdat _]] := C116_data P; rewrite el eq.
set qs := [seq x ^+ p | x <- xs]; have sq : size qs = size xs by rewrite size_map.
case I : (density_init _ _ _ _ _ _ _ _ _ _) => [P0|] //; cbn [rbind].
have [ws [sw /(_ erefl) -> ->]] := init_col sq I.
rewrite /after /sd_observed /set_observed; cbn [odflt oapp rbind dX dy ddom d_int d_w d_r d_up d_in d_pr d_ob d_in_dist d_pr_dist d_ob_dist].
rewrite /sd_pdf (@spdf_col R expf cpi K kde_pdf _ (npdf (np_mean1 data_) sigma) _ _ _ sq) //; cbn [rbind]; rewrite prod_col; cbn [rbind fst snd].
case eM : (mud _) => [s1 [v|]]; cbn [rbind fst snd]; last by [].
rewrite sd2 in eM; have [k [pr [rs [up [m [h1 h2 h3 h4 [h5 h6 h7 h8]]]]]]] := mud_kde sq sd2 eM.
have hn : Some dom = None -> xs != [::] by [].
have [B0 [eB hB hy]] := @bayes_build R expf cpi K kde_pdf trunc xs qs (Some dom) data_ sigma sq hn.
move: eB; cbn [omap obind oapp prior_range]; rewrite /prior_range in hB.
case: (bayes_init _ _ _ _ _ _) => [B1|] //; cbn [rbind].
rewrite /after; case eL : (sb_likelihood _ _ _ _ _ _) => [B2 [[]|]] //; cbn [rbind fst snd] => -[eB].
rewrite eB; case eMap : ((map_pt B0).2) => [x|]; cbn [rbind]; last by [].
case=> <- <-; exists xs, data_, k, pr, x, rs, up; split=> //.
- by move: P; rewrite sd2 el eq.
- have [k0 [k1 k2]] := @map_keeps R expf cpi K kde_pdf ln B0; have [b1 b2 _ _ _] := hB.
  rewrite k0 k1 k2 b1 b2 hy sd2; split=> //.
    by apply: map_state eMap => //; case: (dom) sd2.
  by apply: (C90_map_point_idempotent (s := B0)); rewrite -eMap; apply: surjective_pairing.
- split=> // sp; move: h3; rewrite xvbop_same ?size_map ?sq ?sp // => -[<-].
  by rewrite size_map size_zip size_map sq sp minnn.
Qed.

(** ** C141 *)
(** *** Specification *)
(** The curve of the density f from lo to hi with aff - 1 points, scaled to Riemann sum one; and not
    scaled. *)
Definition scaled1 (lo hi : R) (aff : nat) (f : R -> R) : seq R * seq R :=
  ([seq tick lo hi aff i | i <- iota 0 aff.-1],
   [seq f (tick lo hi aff i) / (\sum_(j <- iota 0 aff.-1) f (tick lo hi aff j) * (`|hi - lo| / aff.-1%:R)) | i <- iota 0 aff.-1]).
Definition raw1 (lo hi : R) (aff : nat) (f : R -> R) : seq R * seq R :=
  ([seq tick lo hi aff i | i <- iota 0 aff.-1], [seq f (tick lo hi aff i) | i <- iota 0 aff.-1]).
Definition dc (lbl : string) (c : seq R * seq R) : mark := DensityCurve lbl c.1 c.2.
(** The text with N, which is there unless N = 1. *)
Definition text (N : int) : seq mark := if N == 1 then [::] else [:: TextN N (- (3%:R / 4%:R)) 5%:R].
(** The file in the directory. *)
Definition in_dir (d name : string) : string :=
  if (d =? "")%string then name else if (d =? ".")%string then name else (d ++ "/" ++ name)%string.

Lemma scaled_one lo hi (aff : nat) (f : R -> R) src :
  scaled_curve [:: (lo, hi)] aff (fun p => f (nth 0 p 0)) 0 (drawn src 1 0) = scaled1 lo hi aff f.
Proof. by rewrite C139_one_observable. Qed.

(** plot_obs_space without the likelihood, one observable. *)
Lemma bobs_pf (s : bprob) (aff : nat) lbl e f : (1 < aff)%N -> dim (by_ s) 1 = 1%N ->
  skde (by_ s) tt (odflt (nseq (dim (by_ s) 0) (Fin 1)) (b_ps s)) = Ok e ->
  density grid_pdf grid_eval 1 "kde" e (fun p => f (nth 0 p 0)) ->
  @bobs_plot R sdist unit tt grid_pdf grid_eval skde s 0 None aff ONone (OSet (Some lbl)) =
  Ok [:: dc lbl (raw1 (-1) 1 aff f)].
Proof.
move=> ha hd ee he; rewrite /bobs_plot hd [nseq 1 _]/=; set yr := [:: _].
have ek : py_index (size yr) 0 = Ok 0%N by [].
have [mesh [grid [h1 h2 h3 h4 h5]]] := bobs_prelude aff ek; rewrite h1; cbn [rbind fst snd]; rewrite ek; cbn [rbind].
rewrite ticksE; cbn [rbind]; rewrite h2 h3; cbn [not_none rbind].
have [g0 gs] : grid_columns yr aff != [::] /\ all (fun p => size p == 1%N) (grid_columns yr aff) by apply: grid_points_ok.
have -> : posterior_kde tt skde (by_ s) s = Ok e by rewrite /posterior_kde -ee; case: (b_ps s).
cbn [rbind]; rewrite (he _ g0 gs); cbn [rbind]; rewrite reshape_grid; cbn [rbind]; rewrite margin_grid //.
have := C140_one_observable (-1) 1 aff (fun p : seq R => f (nth 0 p 0)); rewrite /raw_curve -/yr => -[e6].
by cbn [size nth cat label] in *; rewrite e6.
Qed.

(** C141: the two figures of a pass, from the samples xs, their powers, the data, the weights of the
    two problems and the kernel density estimates made from them. *)
Theorem C141_figures p ns mu sigma a b dint N u z sp cl D B :
  (forall k n (v : seq R) pr, kde_pdf k (Nd [:: n; 1%N] v) = Ok pr -> size pr = n) ->
  pass p ns mu sigma [:: a; b] dint N u z = Ok (D, B) -> a < b -> 0 < sigma -> 0 < N ->
  exists xs data_ rs k0, let qs := [seq x ^+ p | x <- xs] in
  [/\ poly p ns 2 u mu sigma N z = Ok (col xs, Nd [:: size xs; 1%N] qs, data_),
      d_r D = Some rs /\ size rs = size xs, kde (Nd [:: size xs; 1%N] qs) tt (nseq (size xs) (Fin 1)) = Ok k0 &
  forall ws ku kp kq kr fu fp f0 fq fr,
    size ws = size xs ->
    (forall i, (i < size xs)%N -> nth NaN ws i =
       Fin ((if a <= nth 0 xs i <= b then 1 / (b - a) else 0) * \prod_(d <- data_) nval d sigma (nth 0 xs i ^+ p))) ->
    kde (col xs) tt rs = Ok ku -> kde (col xs) tt ws = Ok kp ->
    kde (Nd [:: size xs; 1%N] qs) tt rs = Ok kq -> kde (Nd [:: size xs; 1%N] qs) tt ws = Ok kr ->
    estimates ku fu -> estimates kp fp -> estimates k0 f0 -> estimates kq fq -> estimates kr fr ->
    let c := if dint then trunc else id in
    let lo := c (a - (b - a) / 20%:R) in let hi := c (b + (b - a) / 20%:R) in
    let file name := omap (fun d => in_dir d (name ++ str_int N ++ ".png")%string) sp in
    let closed := isSome sp && cl in
    figs p ns mu sigma [:: a; b] dint N u z sp cl =
    ([:: CFig ([:: dc "Initial/Prior" (scaled1 lo hi 100 (uval a b)); dc "Updated" (scaled1 lo hi 100 fu);
                   dc "Posterior" (scaled1 a b 1000 fp)] ++ text N)
              (-1, 1) (- (1 / 5%:R), if N == 1 then 6%:R else 28%:R) (file "bip-vs-sip-"%string) closed;
         CFig ([:: dc "$N(0.25,0.1^2)$" (scaled1 (-1) 1 100 (nval (mean data_) sigma));
                   dc "PF of Initial" (scaled1 (-1) 1 100 f0); dc "PF of Updated" (scaled1 (-1) 1 100 fq);
                   dc "PF of Posterior" (raw1 (-1) 1 1000 fr)] ++ text N)
              (-1, 1) (- (1 / 5%:R), if N == 1 then 9%:R / 2%:R else 28%:R) (file "bip-vs-sip-pf-"%string) closed],
     Ok (D, B))].
Proof.
move=> hsz hpass ab s0 n0; move: hpass; rewrite pass_solve.
case S : (solve _ _ _ _ _ _ _ _ _) => [[d b0]|//]; cbn [rbind fst snd].
have [xs [data_ [k [pr [x [rs [up [_ hp [b1 b2 b3 b4 b5] [h1 h2 h3 h4] eD]]]]]]]] := solve_state S.
set qs := [seq x ^+ p | x <- xs] in hp b2 b4 h1 h2 h3 eD.
have {}h4 := h4 (hsz _ _ _ _ h2).
have sq : size qs = size xs by rewrite size_map.
have dn : data_ != [::].
  have [_ [_ _ _ sdat _]] := C116_data hp; rewrite -size_eq0; apply/eqP => e; move: n0; by rewrite -sdat e.
have em : np_mean1 data_ = Fin (mean data_) by case: (data_) dn.
have emin : np_min [:: a; b] = a by rewrite /np_min /= (min_r (ltW ab)) minxx.
have emax : np_max [:: a; b] = b by rewrite /np_max /= (max_l (ltW ab)) (max_r (ltW ab)).
pose Bd := Nd [:: 1%N; 2%N] (pad_row (cast_of trunc dint) (5%:R / 100%:R) [:: a; b]).
have eF : fit_domain (cast_of trunc dint) None (Some (Nd [:: 1%N; 2%N] [:: a; b])) (5%:R / 100%:R) = Ok Bd.
  by rewrite /fit_domain /fit_domain_bounds /ndim /dim /= /rows /dim.
have hD : after (plot_param_space (@sd_pdf R expf cpi K kde_pdf) tt tt (@Uni R K) (@norm01 R K) skde (@skde_pdf R K kde_pdf) trunc
     (fun _ _ => Ok tt) d false (5%:R / 100%:R) true true false false) = Ok (put_dom d Bd).
  rewrite /after /plot_param_space eD; cbn [ddom d_int]; rewrite eF; by cbn [sbind DensityModel.lift guard isSome d_in_dist rbind fst snd].
rewrite hD; cbn [rbind] => -[eD' eB]; rewrite -eB.
exists xs, data_, rs, k; split=> //; first by rewrite -eD' eD.
move=> ws ku kp kq kr fu fp f0 fq fr sw hw e1 e2 e3 e4 g1 g2 g3 g4 g5.
set lo := (if dint then trunc else id) (a - _); set hi := (if dint then trunc else id) (b + _).
have ews : post xs qs [:: a; b] data_ sigma = ws.
  apply: (@eq_from_nth _ NaN); first by rewrite size_map size_zip sq minnn sw.
  move=> i; rewrite size_map size_zip sq minnn => hi'.
  rewrite hw // (nth_map (0, 0)) ?size_zip ?sq ?minnn // nth_zip // /qs (nth_map 0) //= emin emax.
  by rewrite lik_val // /updf subr_gt0 ab addrC subrK.
rewrite /figure_pass S.
have eI : intervals Bd = [:: (lo, hi)].
  have e : 5%:R / 100%:R = 20%:R^-1 :> R by field.
  rewrite /intervals /Bd /rows /dim /= e ![20%:R^-1 * _]mulrC; congr [:: (_, _)]; by rewrite /lo /hi /cast_of; case: (dint).
have W1 : xvbop (@xmul R) rs (nseq (size xs) (Fin 1)) = Ok rs.
  rewrite xvbop_same ?size_nseq //; congr Ok; rewrite -h4.
  by elim: (rs) => //= r l ->; rewrite xmul1r.
have W2 : xvbop (@xmul R) (nseq (size xs) (Fin 1)) rs = Ok rs.
  rewrite xvbop_same ?size_nseq //; congr Ok; rewrite -h4.
  elim: (rs) => [//|r l ih]; rewrite [nseq _ _]/= [zip _ _]/=; cbn [map fst snd].
  by rewrite xmulC xmul1r ih.
have i1 (I : seq (R * R)) : size I = 1%N -> py_index (size I) 0 = Ok 0%N by move=> ->.
have C src dd f lo0 hi0 (aff : nat) : (2 < aff)%N -> src = "pdf"%string \/ src = "kde"%string -> density grid_pdf grid_eval 1 src dd (fun p => f (nth 0 p 0)) ->
  dist_curve grid_pdf grid_eval src (Some dd) [:: (lo0, hi0)] 0 aff = Ok (scaled1 lo0 hi0 aff f).
  move=> ha hs hd; have := @draw_distE R sdist grid_pdf grid_eval "" src dd _ [:: (lo0, hi0)] 0 0 aff erefl ha hs hd.
  rewrite /draw_dist scaled_one; case: (dist_curve _ _ _ _ _ _ _) => [cc|//]; cbn [rbind]; rewrite /line_of => -[e5 e6].
  by rewrite [cc]surjective_pairing e5 e6.
have M1 : comparison_plot expf cpi kde kde_pdf kde_at trunc ln d b0 "param" = ((put_dom d Bd, b0),
   Ok [:: dc "Initial/Prior" (scaled1 lo hi 100 (uval a b)); dc "Updated" (scaled1 lo hi 100 fu);
          dc "Posterior" (scaled1 a b 1000 fp)]).
  rewrite [comparison_plot _ _ _ _ _ _ _ _ _ _]/comparison_plot; cbn [String.eqb Ascii.eqb Bool.eqb]; rewrite /param_plot; cbn [pp_range pp_pad pp_in pp_up pp_win pp_mud pp_true].
  have -> : fit_domain (cast_of trunc (d_int d)) None (Some (ddom d)) (5%:R / 100%:R) = Ok Bd by rewrite eD.
  cbn [sbind]; have -> : d_in_dist (put_dom d Bd) = Some (Uni [:: a] [:: b - a]) by rewrite eD /= emin emax.
  cbn [of_opt DensityModel.lift sbind]; rewrite eI (@C "pdf"%string _ (uval a b)) //; [|by left|exact: uniform_density].
  cbn [rbind sbind DensityModel.lift].
  have -> : updated_kde tt skde (put_dom d Bd) = Ok (Est ku).
    by rewrite /updated_kde eD; cbn [d_r d_w put_dom dX]; rewrite W1; cbn [rbind]; rewrite /skde e1.
  cbn [rbind]; rewrite (@C "kde"%string _ fu) //; try (by right); try exact: est_density.
  cbn [rbind sbind DensityModel.lift cat map fst snd].
  rewrite /bparam_plot; cbn [not_none DensityModel.lift sbind]; rewrite [map_point _ _ _ _]b5; cbn [sbind].
  have -> : posterior_kde tt skde (bX b0) b0 = Ok (Est kp) by rewrite /posterior_kde b4 b1 ews /skde e2.
  have -> : intervals (bdom b0) = [:: (a, b)] by rewrite b3 /intervals /rows /dim.
  cbn [rbind]; rewrite /draw_dist (@C "kde"%string _ fp) //; try (by right); try exact: est_density.
have dd1 : dim (dy (put_dom d Bd)) 1 = 1%N by rewrite eD.
have M2 : comparison_plot expf cpi kde kde_pdf kde_at trunc ln (put_dom d Bd) b0 "obs" = ((put_dom d Bd, b0),
   Ok [:: dc "$N(0.25,0.1^2)$" (scaled1 (-1) 1 100 (nval (mean data_) sigma));
          dc "PF of Initial" (scaled1 (-1) 1 100 f0); dc "PF of Updated" (scaled1 (-1) 1 100 fq);
          dc "PF of Posterior" (raw1 (-1) 1 1000 fr)]).
  rewrite [comparison_plot _ _ _ _ _ _ _ _ _ _]/comparison_plot; cbn [String.eqb Ascii.eqb Bool.eqb].
  rewrite (@C139_curves R sdist unit tt grid_pdf grid_eval (@is_frozen R K) skde (put_dom d Bd) 0 0 [:: (-1, 1)] 100 _ _ _
    (Nor [:: Fin (mean data_)] sigma) (fun p => nval (mean data_) sigma (nth 0 p 0)) (Est k) (fun p => f0 (nth 0 p 0)) rs (Est kq) (fun p => fq (nth 0 p 0))) //.
  - rewrite (@bobs_pf b0 1000 _ (Est kr) fr) //; cbn [rbind cat odflt oapp].
    + by rewrite /line_of -!/(dc _ _) !(scaled_one (-1) 1 100).
    + by rewrite b2.
    + by rewrite b2 b4 ews /= /SimpleModel.skde e4.
  - by rewrite eD /= em.
  - exact: normal_density.
  - by rewrite eD.
  - by rewrite /push_weights eD /= size_nseq h4; split=> // i hi'; rewrite nth_nseq hi' xmulC xmul1r.
  - by rewrite eD /= /SimpleModel.skde e3.
rewrite M1 M2 -eD'; congr (_, _); rewrite /finish /text.
have e34 : 75%:R / 100%:R = 3%:R / 4%:R :> R by field.
have e15 : 2%:R / 10%:R = 1 / 5%:R :> R by field.
have e92 : 45%:R / 10%:R = 9%:R / 2%:R :> R by field.
rewrite e34 e15 e92 /in_dir /path_join.
by case: (N == 1); case: sp => [q|] //=; case: (q =? "")%string; case: (q =? ".")%string.
Qed.
End Props.
