(** Property C148: the ADCIRC figures of mud_paper. *)
Set Warnings "-notation-overridden,-ambiguous-paths".
From Coq Require Import String ZArith.
From mathcomp Require Import all_ssreflect all_algebra.
From mathcomp Require Import zify.
From Verif Require Import Py Nd Xnum LinAlg Dmx LgpModel UtilModel DensityModel BayesModel UtilModel2 StModel DrawModel ContModel PoisModel StExModel
  LinExModel PoisExModel PoisExProps2 PoisExProps3 AdcModel AdcProps AdcProps3 AdcProps4 SimpleModel CompModel CompProps2 LinFigModel CliModel CliProps2 CliProps3 PaperModel PaperProps2 AllModel.
Set Implicit Arguments. Unset Strict Implicit. Unset Printing Implicit Defensive.
Import Order.Theory GRing.Theory Num.Theory.
Local Open Scope ring_scope.

(** ** Specification *)
(** Steps that are done in turn until one of them raises: what was made, and whether one raised. *)
Fixpoint until_error T (l : seq (res T)) : seq T * res unit :=
  match l with
  | [::] => ([::], Ok tt)
  | Err e :: _ => ([::], Err e)
  | Ok x :: l' => (x :: (until_error l').1, (until_error l').2)
  end.
Lemma until_cat T (l1 l2 : seq (res T)) xs : until_error l1 = (xs, Ok tt) ->
  until_error (l1 ++ l2) = (xs ++ (until_error l2).1, (until_error l2).2).
Proof.
elim: l1 xs => [|[x|e] l1 ih] xs /=; [by case=> <-; case: until_error | | by []].
by case el: (until_error l1) => [ys r] /= [<- er]; rewrite (ih ys) // el er.
Qed.
Lemma until_all T (l : seq (res T)) xs : until_error l = (xs, Ok tt) <-> l = map (@Ok T) xs.
Proof.
split; last by move=> ->; elim: xs => //= x xs ->.
elim: l xs => [|[x|e] l ih] xs /=; [by case=> <- | | by []].
by case el: (until_error l) => [ys r] /= [<- er]; rewrite (ih ys) // el er.
Qed.

Lemma until_short T (l : seq (res T)) xs e : until_error l = (xs, Err e) -> (size xs < size l)%N.
Proof.
elim: l xs => [|[x|e'] l ih] xs //=; last by case=> <-.
by case el: (until_error l) => [ys r] /= [<- er]; rewrite ltnS; apply: ih; rewrite el er.
Qed.

Section AllProps.
Variable R : rcfType.
Notation xnum := (xnum R).
Notation nd := (nd R).
Notation dset := (dset R).
Variables (D KW BW : Type) (pdf : D -> KW -> nd -> res (pdfval xnum)) (nokw : KW) (nobw : BW)
  (uniform : seq R -> seq R -> D) (norm01 : D) (kde : nd -> BW -> seq xnum -> res D)
  (kde_pdf : D -> nd -> res (seq xnum)) (trunc : R -> R).
Variables (pca_components : nd -> int -> res nd) (svd_v : nd -> res nd).
Variables (G : Type) (reseed : int -> res G) (randn : nat -> G -> seq R * G).
Variable curve : string -> D -> seq (R * R) -> int -> res (seq R * seq R).
Variable tri : seq R -> seq R -> seq R -> res unit.
Variables (stamps : nd -> res (seq R)) (parse : string -> res R) (mesh : nd -> nd -> nd -> res unit).
Variables (wind : dset -> res (seq R * seq R)) (grid : dset -> res dset).
Notation time_window := (adcirc_time_window pdf nokw nobw uniform norm01 kde kde_pdf trunc pca_components svd_v curve tri
  stamps parse).
Notation window_figs := (paper_window_figs pdf nokw nobw uniform norm01 kde kde_pdf trunc pca_components svd_v curve tri
  stamps parse).
Notation figs_of := (adcirc_figs pdf nokw nobw uniform norm01 kde kde_pdf trunc pca_components svd_v curve tri
  stamps parse mesh wind grid).
Notation adcirc := (paper_adcirc pdf nokw nobw uniform norm01 kde kde_pdf trunc pca_components svd_v reseed randn curve tri
  stamps parse mesh wind grid).
Notation load := (load_adcirc_prob reseed randn).

(** The window of the paper solved on its own, right after the problem has been loaded: its figure. *)
Definition figure_alone (s : st R) (dir : string) (w : string * string) (nc : int) (title : string) (yl : option (seq R)) : res (afig R) :=
  let x := (time_window (AST s None) w "pca" nc 50 yl (Some title) (Some dir) (FigString "updated_dist") false).2 in
  _ <- x.2 ;; of_opt AssertionError (ohead x.1).

(** A window of which only the densities are asked for: one figure, or none and an exception. *)
Lemma one_figure (a : ast R) w nc yl ti dir :
  let x := (time_window a w "pca" nc 50 yl (Some ti) (Some dir) (FigString "updated_dist") false).2 in
  match x.2 with
  | Err _ => x.1 = [::]
  | Ok _ => exists tm f, [/\ x.1 = [:: f], in_window stamps parse (a_st a) w = Ok tm,
      af_file f = file_in (Some dir) (named "updated_dist_" nc (count id tm)), 
      exists e, af_title f = Some (ti, nc, e) & af_closed f = false]
  end.
Proof.
rewrite /adcirc_time_window; case ew: (in_window _ _ _ _) => [tm|//].
case: (mud_problem_pca _ _ _ _ _ _ _ _) => a1 [P|//]; case: (DensityModel.estimate _ _ _ _ _ _ _ _) => P1 [m|//].
case: (DensityModel.expected_ratio _ _ _ _ _ _ _ _) => P2 [e|//]; rewrite /astep /=.
case: (s_lref _) => [l|//]; case: (updated_dist_plot _ _ _ _ _ _ _ _ _ _ _ _) => P3 [ax|//] /=.
by exists tm; eexists; split; [by [] | by [] | by rewrite afig_ofE | by exists e; rewrite afig_ofE | by rewrite afig_ofE].
Qed.

Lemma windows_alone (s : st R) dir l : forall a, a_st a = s ->
  window_figs a dir l = until_error [seq figure_alone s dir x.1.1.1 x.1.1.2 x.1.2 x.2 | x <- l].
Proof.
elim: l => [//|[[[w nc] ti] yl] l ih] a ea /=.
have [w1 w2] := @window_state R D KW BW pdf nokw nobw uniform norm01 kde kde_pdf trunc pca_components svd_v curve tri stamps parse
   a (AST s None) w nc 50 yl (Some ti) (Some dir) (FigString "updated_dist") false ea.
have o := @one_figure (AST s None) w nc yl ti dir; move: o w1 w2; rewrite /figure_alone.
case: (time_window a _ _ _ _ _ _ _ _ _) => a1 [fs r]; case: (time_window _ _ _ _ _ _ _ _ _ _) => a2 [fs' r'] /= o [-> ->] ea1.
case: r' o => [P [tm [f [-> _ _ _ _]]]|e ->] /=; last by [].
by rewrite ih ?ea1.
Qed.

(** The nine figures of the paper, each on its own. *)
Definition paper_steps (ds : dset) (s : st R) (dir : string) : seq (res (anypic R)) :=
  let at0 value zoom := gr <- grid ds ;; f <- tri_mesh_plot mesh gr value (Some [:: Posz 0]) (Some zoom) (- 10%:R) (Some dir) ;; Ok (AMesh f) in
  let T1 := ("2018-01-11 01:00:00", "2018-01-11 07:00:00")%string in
  let T2 := ("2018-01-04 11:00:00", "2018-01-04 14:00:00")%string in
  let T3 := ("2018-01-07 00:00:00", "2018-01-09 00:00:00")%string in
  let h : R := 18%:R / 10%:R in
  let win w nc ti yl := f <- figure_alone s dir w nc ti yl ;; Ok (AWin f) in
  [:: at0 "wind_speed_mult_0"%string ((- (1812%:R / 25%:R), 47%:R / 100%:R), (407%:R / 10%:R, 32%:R / 100%:R));
      at0 "DP"%string ((- (145%:R / 2%:R), 1 / 10%:R), (817%:R / 20%:R, 4%:R / 100%:R));
      wd <- wind ds ;; f <- adcirc_ts_plot parse s [:: T1; T2; T3] (Some wd)
        (Some [:: ("2018-01-10 14:00:00"%string, h); ("2018-01-04 00:00:00"%string, h); ("2018-01-07 20:00:00"%string, h)]) (Some dir) ;; Ok (ATs f.1 f.2);
      win T1 (Posz 1) "$T_1$"%string (Some [:: 65%:R; 1600%:R]);
      win T1 (Posz 2) "$T_1$"%string None;
      win T2 (Posz 1) "$T_2$"%string (Some [:: 40%:R; 4000%:R]);
      win T2 (Posz 2) "$T_2$"%string (Some [:: 35%:R; 10%:R ^+ 4]);
      win T3 (Posz 1) "$T_3$"%string (Some [:: 30%:R; 3000%:R]);
      win T3 (Posz 2) "$T_3$"%string (Some [:: 160%:R; 14%:R * 10%:R ^+ 3])].

Lemma oneE T (r : res T) (mk : T -> anypic R) l : one r mk (until_error l) = until_error ((f <- r ;; Ok (mk f)) :: l).
Proof. by rewrite /one; case: r => [x|//] /=; case: until_error. Qed.
Lemma until_map T U (f : T -> U) (l : seq (res T)) :
  (map f (until_error l).1, (until_error l).2) = until_error [seq x <- r ;; Ok (f x) | r <- l].
Proof. by elim: l => [//|[x|e] l ih] //=; rewrite -ih. Qed.

(** C148: the ADCIRC figures are drawn in this order, up to the first that raises; each is the one it
    would be on its own. *)
Theorem C148_figures ds s dir : figs_of ds s dir = until_error (paper_steps ds s dir).
Proof.
rewrite /adcirc_figs (@windows_alone s) // until_map !oneE /paper_steps.
congr (until_error (_ :: _ :: _ :: _)); by [case: (grid ds) | case: (wind ds)].
Qed.
(** C148: the data file is read from the directory of the data if it is there, otherwise downloaded to
    that place; the problem is loaded with the seed 21. *)
Definition adcirc_file (sp : string) : string := in_dir sp "data/adcirc-si.pkl".
Theorem C148_data sp remote (disk : dict dset) g ds g1 s :
  (if get disk (adcirc_file sp) is Some d then Ok d else remote) = Ok ds ->
  load (Ok ds) (5%:R / 100%:R) (Some (Posz 21)) (Nd [:: 1; 2]%N [:: 0; 0]) g = (g1, Ok (ds, s)) ->
  exists disk', [/\ adcirc sp remote disk g = ((g1, disk'), until_error (paper_steps ds s (in_dir sp "figures"))),
    get disk' (adcirc_file sp) = Some ds & forall q, q <> adcirc_file sp -> get disk' q = get disk q].
Proof.
rewrite /paper_adcirc !in_dir_path -/(adcirc_file sp) => ed el.
case eg: (get disk (adcirc_file sp)) ed => [d|] e.
  case: e => e1; rewrite e1 in eg; rewrite /open_file eg; cbn [of_opt]; exists disk.
  by rewrite -[Nd _ _]/(default_sensors R) in el; rewrite el C148_figures.
rewrite e /rmap /open_file get_put String.eqb_refl; cbn [of_opt]; exists (put disk (adcirc_file sp) ds).
rewrite -[Nd _ _]/(default_sensors R) in el; rewrite el C148_figures get_put String.eqb_refl; split=> // q /String.eqb_neq hq.
by rewrite get_put hq.
Qed.
(** C148: no file and no download, or data that cannot be loaded: nothing is drawn. *)
Theorem C148_no_data sp remote (disk : dict dset) g e :
  (if get disk (adcirc_file sp) is Some d then Ok d else remote) = Err e ->
  adcirc sp remote disk g = ((g, disk), ([::], Err e)).
Proof. by rewrite /paper_adcirc in_dir_path -/(adcirc_file sp); case: (get _ _) => [d //|->]. Qed.
Theorem C148_bad_data sp remote (disk : dict dset) g ds g1 e :
  (if get disk (adcirc_file sp) is Some d then Ok d else remote) = Ok ds ->
  load (Ok ds) (5%:R / 100%:R) (Some (Posz 21)) (Nd [:: 1; 2]%N [:: 0; 0]) g = (g1, Err e) ->
  exists disk', adcirc sp remote disk g = ((g1, disk'), ([::], Err e)).
Proof.
rewrite /paper_adcirc !in_dir_path -/(adcirc_file sp) => ed el; rewrite -[Nd _ _]/(default_sensors R) in el.
case eg: (get disk (adcirc_file sp)) ed => [d|] e1.
  by case: e1 => e1; exists disk; rewrite /open_file eg; cbn [of_opt]; rewrite e1 el.
by exists (put disk (adcirc_file sp) ds); rewrite e1 /rmap /open_file get_put String.eqb_refl; cbn [of_opt]; rewrite el.
Qed.

(** C148: the files of a complete run; [n k]: how many of the times are strictly inside window [k]. *)
Theorem C148_files ds s dir fs ti : figs_of ds s dir = (fs, Ok tt) -> s_times s = Some ti ->
  exists ts (lo hi : nat -> R), [/\ stamps ti = Ok ts,
    [/\ parse "2018-01-11 01:00:00" = Ok (lo 1%N) & parse "2018-01-11 07:00:00" = Ok (hi 1%N)],
    [/\ parse "2018-01-04 11:00:00" = Ok (lo 2%N) & parse "2018-01-04 14:00:00" = Ok (hi 2%N)],
    [/\ parse "2018-01-07 00:00:00" = Ok (lo 3%N) & parse "2018-01-09 00:00:00" = Ok (hi 3%N)] &
    let n k := str_int (Posz (count (fun x => (lo k < x) && (x < hi k)) ts)) in
    [seq any_file f | f <- fs] = [seq Some (in_dir dir x) | x <-
      [:: "si-wind_speed_mult_0"; "si-DP"; "adcirc_full_ts";
          "updated_dist_1_" ++ n 1%N; "updated_dist_2_" ++ n 1%N; "updated_dist_1_" ++ n 2%N; "updated_dist_2_" ++ n 2%N;
          "updated_dist_1_" ++ n 3%N; "updated_dist_2_" ++ n 3%N]%string]].
Proof.
rewrite C148_figures => /until_all; rewrite /paper_steps => h et.
have fin x : file_in (Some dir) x = Some (in_dir dir x) by rewrite -in_dir_path.
have m value zoom f : (gr <- grid ds ;; f <- tri_mesh_plot mesh gr value (Some [:: Posz 0]) (Some zoom) (- 10%:R) (Some dir) ;; Ok (AMesh f)) = Ok f ->
    any_file f = Some (in_dir dir ("si-" ++ value)).
  case: (grid ds) => [gr|//]; cbn [rbind]; rewrite /tri_mesh_plot.
  case: (grid_arr gr "X") => [x|//]; case: (grid_arr gr "Y") => [y|//]; case: (grid_arr gr "triangles") => [t|//]; cbn [rbind].
  case: (mesh x y t) => [?|//]; cbn [rbind]; case: (mesh_values _ _ _) => [v|//]; cbn [rbind]; case: (guard _ _) => [?|//]; cbn [rbind].
  by case: (rmapM _ _) => [q|//] [<-] /=; rewrite in_dir_path.
have tsf wd ws ls f : (wd <- wd ;; f <- adcirc_ts_plot parse s ws (Some wd) (Some ls) (Some dir) ;; Ok (ATs f.1 f.2)) = Ok f ->
    any_file f = Some (in_dir dir "adcirc_full_ts").
  case: wd => [[x y]|//]; rewrite /adcirc_ts_plot; cbn [rbind].
  case: (plot_ts _ _ _ _ _) => [m1|//]; cbn [rbind]; case: (guard _ _) => [?|//]; cbn [rbind].
  by case: (rmapM _ _) => [q|//] [<-] /=; rewrite in_dir_path.
have w wn nc title yl f : (f <- figure_alone s dir wn nc title yl ;; Ok (AWin f)) = Ok f ->
    exists ts a b, [/\ stamps ti = Ok ts, parse wn.1 = Ok a, parse wn.2 = Ok b &
      any_file f = Some (in_dir dir ("updated_dist_" ++ str_int nc ++ "_" ++ str_int (Posz (count (fun x => (a < x) && (x < b)) ts))))].
  rewrite /figure_alone; have := @one_figure (AST s None) wn nc yl title dir; cbv zeta.
  case: (time_window _ _ _ _ _ _ _ _ _ _).2 => fs' [P|//]; cbn [fst snd] => -[tm [f' [-> ew ef _ _]]] [<-].
  move: ew; rewrite /in_window /= et /=; case: (stamps ti) => [ts|//] /=; case: (parse wn.1) => [a|//] /=; case: (parse wn.2) => [b|//] /= [etm].
  exists ts, a, b; split=> //; by rewrite /any_file ef fin /named -etm count_map.
case: fs h => [//|f1 [//|f2 [//|f3 [//|f4 [//|f5 [//|f6 [//|f7 [//|f8 [//|f9 [|//]]]]]]]]]] [].
move=> /m e1 /m e2 /tsf e3 /w [ts [a1 [b1 [est ea1 eb1 e4]]]] /w [ts5 [a5 [b5 [est5 ea5 eb5 e5]]]] /w [ts6 [a2 [b2 [est6 ea2 eb2 e6]]]]
  /w [ts7 [a7 [b7 [est7 ea7 eb7 e7]]]] /w [ts8 [a3 [b3 [est8 ea3 eb3 e8]]]] /w [ts9 [a9 [b9 [est9 ea9 eb9 e9]]]].
move: est5 est6 est7 est8 est9 ea5 eb5 ea7 eb7 ea9 eb9; cbn [fst snd] in *.
rewrite est ea1 eb1 ea2 eb2 ea3 eb3 => -[q5] [q6] [q7] [q8] [q9] [r5] [s5] [r7] [s7] [r9] [s9].
exists ts, (fun k => nth 0 [:: 0; a1; a2; a3] k), (fun k => nth 0 [:: 0; b1; b2; b3] k); split=> //=.
by rewrite e1 e2 e3 e4 e5 e6 e7 e8 e9 -q5 -q6 -q7 -q8 -q9 -r5 -s5 -r7 -s7 -r9 -s9.
Qed.

End AllProps.

(** C148: every file name is different, hence every figure kept, exactly if no two windows have the same
    number of times inside. *)
Theorem C148_kept dir (n1 n2 n3 : nat) : let n k := str_int (Posz k) in
  List.NoDup [seq Some (in_dir dir x) | x <-
      [:: "si-wind_speed_mult_0"; "si-DP"; "adcirc_full_ts";
          "updated_dist_1_" ++ n n1; "updated_dist_2_" ++ n n1; "updated_dist_1_" ++ n n2; "updated_dist_2_" ++ n n2;
          "updated_dist_1_" ++ n n3; "updated_dist_2_" ++ n n3]%string] <-> [/\ n1 <> n2, n1 <> n3 & n2 <> n3].
Proof.
move=> n.
have inj a b : Some (in_dir dir a) = Some (in_dir dir b) <-> a = b.
  split=> [[e]|-> //]; apply/String.eqb_eq; by rewrite -(in_dir_eqb dir) e String.eqb_refl.
have n0 T (x : T) l : (~ List.In x l) -> List.NoDup l -> List.NoDup (x :: l) by move=> *; apply: List.NoDup_cons.
have memS x (l : seq string) : List.In (Some (in_dir dir x)) [seq Some (in_dir dir x) | x <- l] -> List.In x l.
  by elim: l => //= y l ih [/inj ->|/ih]; [left | right].
split.
  rewrite /=; do 3 (move=> /List.NoDup_cons_iff [_]).
  move=> /List.NoDup_cons_iff [h1] /List.NoDup_cons_iff [_] /List.NoDup_cons_iff [h2] _.
  by split=> e; [apply: h1 | apply: h1 | apply: h2]; rewrite e /=; tauto.
move=> [h12 h13 h23].
have ne x y : x <> y -> n x <> n y by move=> h /str_int_inj [].
have ndm (l : seq string) : List.NoDup l -> List.NoDup [seq Some (in_dir dir x) | x <- l].
  elim: l => [|x l ih] /=; first by constructor.
  move=> /List.NoDup_cons_iff [hx /ih hl]; apply: n0 => // /memS; exact: hx.
apply: ndm; move: (ne _ _ h12) (ne _ _ h13) (ne _ _ h23); move: (n n1) (n n2) (n n3) => a b c ab ac bc.
do 9 (apply: (n0); first by (cbn [List.In append]; clear - ab ac bc; intuition congruence)); exact: List.NoDup_nil.
Qed.
