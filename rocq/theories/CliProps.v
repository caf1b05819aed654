(** Properties C135 and C136: the tables printed and the Poisson commands. *)
Set Warnings "-notation-overridden,-ambiguous-paths".
From Coq Require Import String ZArith.
From mathcomp Require Import all_ssreflect all_algebra.
From mathcomp Require Import zify.
From Verif Require Import Py Nd Xnum XnumProofs UtilModel DensityModel NdProofs DensityProps3 UtilModel2 UtilProps
  StModel StProps StProps2 StProps3 StProps4 StProps5 DrawModel DrawProps DrawProps3 ContModel PoisModel StExModel StExProps
  PoisExModel PoisExProps PoisExProps2 PoisExProps3 AdcModel AdcProps AdcProps2 AdcProps3 AdcProps4 CliModel.
Set Implicit Arguments. Unset Strict Implicit. Unset Printing Implicit Defensive.
Import Order.Theory GRing.Theory Num.Theory.
Local Open Scope ring_scope.

Section CliProps.
Variable R : rcfType.
Notation xnum := (xnum R).
Notation nd := (nd R).
Notation cell := (cell R).
Notation record := (dict cell).

(** ** C135 *)
(** The entry of a record in a column. *)
Definition cell_of (r : record) (f : string) : cell := odflt (CText R "") (get r f).

Lemma hasP_str (x : string) l : has (String.eqb x) l = true <-> List.In x l.
Proof.
elim: l => [//|y l ih] /=; split.
- by case/orP => [/String.eqb_eq ->|/ih]; [left | right].
- by case=> [->|/ih ->]; rewrite ?String.eqb_refl ?orbT.
Qed.
Lemma repeatsP l : repeats l = false <-> List.NoDup l.
Proof.
elim: l => [|x l ih] /=; first by split=> // _; constructor.
split.
- move=> /negbT; rewrite negb_or => /andP [/negP hx /negbTE hl]; constructor; last exact/ih.
  by move=> hi; apply: hx; apply/hasP_str.
- move=> h; inversion h; subst; rewrite (proj2 ih) // orbF; apply/negP => /hasP_str; by [].
Qed.

Lemma row_cellsE (r : record) fields : (forall f, List.In f fields -> get r f <> None) ->
  row_cells fields r = Ok [seq cell_of r f | f <- fields].
Proof.
move=> h; apply: rmapM_ok => f hf; rewrite /cell_of; have := h f hf; by case: (get r f).
Qed.
Lemma row_cells_missing (r : record) fields f : List.In f fields -> get r f = None -> row_cells fields r = Err KeyError.
Proof.
rewrite /row_cells; elim: fields => [//|x l ih] /= [->|hf] e; first by rewrite e.
by case: (get r x) => [c|] //=; rewrite (ih hf e).
Qed.

(** The records as filter_fun makes them, and whether one is kept. *)
Definition read (filter_fun : option (record -> res record)) (F : record -> record) (r : record) : Prop :=
  if filter_fun is Some f then f r = Ok (F r) else F r = r.
Definition decided (search : option string) (found : cell -> res bool) (keep : record -> bool) (r : record) : Prop :=
  if search is Some k then exists2 c, get r k = Some c & found c = Ok (keep r) else keep r = true.

Lemma table_rows_cat fields search found filter_fun (F : record -> record) (keep : record -> bool) (rs rs2 : seq record) :
  (forall r, List.In r rs -> [/\ read filter_fun F r, decided search found keep (F r) &
     keep (F r) -> forall f, List.In f fields -> get (F r) f <> None]) ->
  table_rows fields search found filter_fun (rs ++ rs2) =
  rmap (cat [seq [seq cell_of r f | f <- fields] | r <- filter keep (map F rs)])
    (table_rows fields search found filter_fun rs2).
Proof.
elim: rs => [|r rs ih] h; first by rewrite /=; case: (table_rows _ _ _ _ _).
have [h1 h2 h3] := h r (or_introl erefl).
cbn [cat table_rows].
have -> : (if filter_fun is Some f then f r else Ok r) = Ok (F r) by move: h1; rewrite /read; case: (filter_fun) => [f|] ->.
cbn [rbind].
have -> : (if search is Some k then c <- of_opt KeyError (get (F r) k) ;; found c else Ok true) = Ok (keep (F r)).
  by move: h2; rewrite /decided; case: (search) => [k [c ->]|->].
cbn [rbind]; rewrite ih; last by move=> x hx; apply: h; right.
rewrite /=; case: (keep (F r)) h3 => h3; last by cbn [rbind]; case: (table_rows _ _ _ _ _).
by rewrite row_cellsE //=; last exact: h3; case: (table_rows _ _ _ _ _).
Qed.

(** C135: one row per record that matches, in the order of the records, with the cells asked for. *)
Theorem C135_table (rs : seq record) fields search found filter_fun (F : record -> record) (keep : record -> bool) : List.NoDup fields ->
  (forall r, List.In r rs -> [/\ read filter_fun F r, decided search found keep (F r) &
     keep (F r) -> forall f, List.In f fields -> get (F r) f <> None]) ->
  print_res rs fields search found filter_fun =
  Ok (fields, [seq [seq cell_of r f | f <- fields] | r <- filter keep (map F rs)]).
Proof.
move=> /repeatsP nd h; rewrite /print_res nd /=; have := table_rows_cat [::] h.
by rewrite cats0 => ->; rewrite /= cats0.
Qed.

(** Without a search column: every record, or KeyError if a record lacks a column. *)
Theorem C135_all (rs : seq record) fields : List.NoDup fields ->
  ((forall r f, List.In r rs -> List.In f fields -> get r f <> None) ->
   print_all rs fields = Ok (fields, [seq [seq cell_of r f | f <- fields] | r <- rs])) /\
  ((exists r f, [/\ List.In r rs, List.In f fields & get r f = None]) -> print_all rs fields = Err KeyError).
Proof.
move=> nd; split=> [h|[r [f [hr hf e]]]].
  rewrite /print_all (@C135_table _ _ _ _ _ id (fun _ => true)) //; last by move=> r hr; split=> // _ f; exact: h.
  by rewrite map_id; congr (Ok (_, map _ _)); elim: rs {h} => //= r rs ->.
rewrite /print_all /print_res (proj2 (repeatsP fields) nd) /=.
suff -> : table_rows fields None (fun _ => Ok true) None rs = Err KeyError by [].
elim: rs hr => [//|x rs ih] /= [->|hr]; first by rewrite (row_cells_missing hf e).
rewrite (ih hr); rewrite /row_cells; elim: fields {nd hf ih} => [//|y l ih2] /=; case: (get x y) => [c|] //=.
by move: ih2; case: (rmapM _ _) => [v|e'] //= [->].
Qed.

(** A column name given twice: ValueError, whatever the records are. *)
Theorem C135_twice (rs : seq record) fields search found filter_fun : ~ List.NoDup fields ->
  print_res rs fields search found filter_fun = Err ValueError.
Proof.
move=> h; rewrite /print_res; case e: (repeats fields) => //=.
by case: h; exact/repeatsP.
Qed.
(** A record without the search column: KeyError, even if the columns to print are there. *)
Theorem C135_no_search_column (rs : seq record) r rs2 fields k found filter_fun (F : record -> record) (keep : record -> bool) :
  List.NoDup fields ->
  (forall x, List.In x rs -> [/\ read filter_fun F x, decided (Some k) found keep (F x) &
     keep (F x) -> forall f, List.In f fields -> get (F x) f <> None]) ->
  read filter_fun F r -> get (F r) k = None ->
  print_res (rs ++ r :: rs2) fields (Some k) found filter_fun = Err KeyError.
Proof.
move=> /repeatsP nd h hr e; rewrite /print_res nd /= (table_rows_cat _ h); cbn [table_rows].
have -> : (if filter_fun is Some f then f r else Ok r) = Ok (F r) by move: hr; rewrite /read; case: (filter_fun) => [f|] ->.
by rewrite /= e.
Qed.

(** ** C136 *)
Variables (D KW BW : Type) (pdf : D -> KW -> nd -> res (pdfval xnum)) (nokw : KW) (nobw : BW)
  (uniform : seq R -> seq R -> D) (norm01 : D) (kde : nd -> BW -> seq xnum -> res D)
  (kde_pdf : D -> nd -> res (seq xnum)) (trunc : R -> R).
Variables (pca_components : nd -> int -> res nd) (svd_v : nd -> res nd).
Variables (G : Type) (reseed : int -> res G) (randn : nat -> G -> seq R * G).
Variables (H : Type) (pyseed : int -> H) (pysample : nat -> H -> seq nat * H).
Variable curve : string -> D -> seq (R * R) -> int -> res (seq R * seq R).
Variable tri : seq R -> seq R -> seq R -> res unit.
Variable closest : R * R.
Variable field : dset R -> res (seq R * seq R * seq R).
Notation dprob := (dprob R D).
Notation estimate := (estimate pdf nokw nobw uniform norm01 kde kde_pdf).
Notation expected_ratio := (expected_ratio pdf nokw nobw uniform norm01 kde kde_pdf).
Notation mud_problem := (st_mud_problem D trunc pca_components svd_v).
Notation poisson := (load_poisson_prob reseed randn).
Notation poisson_solve := (poisson_solve pdf nokw nobw uniform norm01 kde kde_pdf trunc pca_components svd_v
  reseed randn pysample curve tri closest field).
Notation poisson_trials := (poisson_trials pdf nokw nobw uniform norm01 kde kde_pdf trunc pca_components svd_v
  reseed randn pyseed pysample curve closest).
Notation solution := (solution pdf nokw nobw uniform norm01 kde kde_pdf).
Notation solved := (solved pdf nokw nobw uniform norm01 kde kde_pdf trunc pca_components svd_v curve).

(** C136: poisson_solve draws no figure, whatever is asked for (not even with the default "all"),
    and neither the figures asked for, nor where to save them, nor sigma has an effect. *)
Theorem C136_no_figures file sigma sigma' pf pf' seed sp sp' g h :
  (poisson_solve file sigma pf seed sp g h).2.1 = [::] /\
  poisson_solve file sigma pf seed sp g h = poisson_solve file sigma' pf' seed sp' g h.
Proof.
split.
  rewrite /CliModel.poisson_solve /run_2d_poisson_sol; case: (poisson _ _ _ _) => g1 [[ds s]|//].
  case: (sensor_order _ _ _ _) => h1 [idx|//]; case: (mud_problem _ _ _ _ _ _ _ _) => [P|//].
  by case: (estimate P) => P1 [].
rewrite /CliModel.poisson_solve /run_2d_poisson_sol -[poisson file sigma' seed g]/(poisson file sigma seed g).
case: (poisson _ _ _ _) => g1 [[ds s]|//].
case: (sensor_order _ _ _ _) => h1 [idx|//]; case: (mud_problem _ _ _ _ _ _ _ _) => [P|//].
by case: (estimate P) => P1 [].
Qed.
(** It prints the MUD point of the problem with two principal components of all sensors. *)
Theorem C136_solve file sigma pf seed sp g h g1 ds s k l h1 P P1 m :
  poisson file sigma seed g = (g1, Ok (ds, s)) -> n_sensors s = Ok k -> pysample k h = (l, h1) ->
  mud_problem s "pca" None None 2 None None (Some (MInts (map Posz l))) = Ok P -> estimate P = (P1, Ok m) ->
  poisson_solve file sigma pf seed sp g h = ((g1, h1), ([::], Ok m)).
Proof.
move=> el ek eh eP em; rewrite /CliModel.poisson_solve /run_2d_poisson_sol el /sensor_order ek /= eh.
rewrite (eP : mud_problem s "pca" None None 2 None None (positions l) = _) em.
have [f1 f2 f3 f4 f5] := fresh eP.
have [_ _ _ _ em1] := estimate_fresh f1 f2 f3 f4 em.
by rewrite /= em1.
Qed.

Lemma solutionE P m e : estimate P = (P, Ok m) -> (expected_ratio P).2 = Ok e -> solution P = Ok (m, e).
Proof. by move=> em ee; rewrite /CliModel.solution em /= ee. Qed.

Lemma trial_rowsE (Ns : seq int) (Q : int -> dprob) (m : int -> seq R) (e : int -> xnum) :
  (forall N, N \in Ns -> solution (Q N) = Ok (m N, e N)) ->
  trial_rows pdf nokw nobw uniform norm01 kde kde_pdf Ns [seq Q N | N <- Ns] =
  Ok [seq [:: ("N", CInt R N); ("mud_pt", CArr (m N)); ("r", CNum (e N))]%string | N <- Ns].
Proof.
move=> h; rewrite /trial_rows size_map.
have -> : Ok [seq [:: ("N", CInt R N); ("mud_pt", CArr (m N)); ("r", CNum (e N))]%string | N <- Ns] =
  rmapM (fun N => Ok [:: ("N", CInt R N); ("mud_pt", CArr (m N)); ("r", CNum (e N))]%string) Ns.
  by elim: (Ns) => //= N l <-.
have: forall n (pre : seq int), size pre = n ->
  rmapM (fun p => N <- of_opt IndexError (ohead (drop p.1 (pre ++ Ns)));; x <- solution p.2 ;;
                  Ok [:: ("N", CInt R N); ("mud_pt", CArr x.1); ("r", CNum x.2)]%string) (zip (iota n (size Ns)) [seq Q N | N <- Ns]) =
  rmapM (fun N => Ok [:: ("N", CInt R N); ("mud_pt", CArr (m N)); ("r", CNum (e N))]%string) Ns.
  elim: Ns h => [//|N Ns ih] h n pre sp /=.
  rewrite drop_size_cat // /= h ?inE ?eqxx //=; rewrite -cat_rcons ih ?size_rcons ?sp //.
  by move=> M hM; apply: h; rewrite inE hM orbT.
by move=> /(_ 0%N [::] erefl).
Qed.

(** C136: poisson_trials.  One row per N, in increasing order, with the MUD point and the expected
    ratio of the problem of the first N sensors, and one figure for each; the figures asked for,
    sigma and the order in which the numbers are given do not matter. *)
Theorem C136_trials file Ns xl1 xl2 sigma pf seed sp g h g1 ds s k l h1
    (P P1 : int -> dprob) (m : int -> seq R) (e : int -> xnum) (cin cup : int -> nat -> seq R * seq R) :
  poisson file sigma seed g = (g1, Ok (ds, s)) -> n_sensors s = Ok k ->
  pysample k (if seed is Some q then pyseed q else h) = (l, h1) ->
  (forall N, N \in Ns -> solved s (sensors_of l N) [:: xl1; xl2] (P N) (P1 N) (m N) (e N) (cin N) (cup N)) ->
  exists Ns' figs, [/\ perm_eq Ns' Ns, sorted <=%R Ns',
    poisson_trials file Ns xl1 xl2 sigma pf seed sp g h =
    ((g1, h1), (figs, Ok ([:: "N"; "mud_pt"; "r"]%string, [seq [:: CInt R N; CArr (m N); CNum (e N)] | N <- Ns']))),
    [seq pf_file f | f <- figs] = [seq trial_file sp N | N <- Ns'] &
    [seq pf_axes f | f <- figs] =
    [seq [:: trial_marks closest 0 N (cin N 0%N) (cup N 0%N) (m N) (Some (- (26%:R / 10%:R), 12%:R / 10%:R, 8%:R / 10%:R)) (e N);
             trial_marks closest 1 N (cin N 1%N) (cup N 1%N) (m N) (Some (- (35%:R / 10%:R), 83%:R / 100%:R, 53%:R / 100%:R)) (e N)] | N <- Ns']].
Proof.
move=> el ek eh hs.
have pe : perm_eq (sort <=%R Ns) Ns by rewrite perm_sort.
have eo : sensor_order pysample "random" s (if seed is Some q then pyseed q else h) = (h1, Ok l) by rewrite /sensor_order ek /= eh.
have hs' N : N \in sort <=%R Ns -> solved s (sensors_of l N) [:: xl1; xl2] (P N) (P1 N) (m N) (e N) (cin N) (cup N).
  by rewrite (perm_mem pe); exact: hs.
have [Q [eQ hQ]] := C131_run closest (default_loc1 R) (default_loc2 R) sp false el eo hs'.
eexists (sort <=%R Ns), _; split=> //.
- exact: (sort_sorted (@le_total _ _)).
- rewrite /CliModel.poisson_trials eQ; congr (_, (_, _)); cbn [rbind snd].
  rewrite (trial_rowsE (m := m) (e := e)); last by move=> N /hQ [_ _ h3 h4]; rewrite (solutionE h3 (congr1 snd h4)).
  cbn [rbind].
  have nd3 : List.NoDup [:: "N"; "mud_pt"; "r"]%string by exact/repeatsP.
  have [h3 _] := @C135_all [seq [:: ("N", CInt R N); ("mud_pt", CArr (m N)); ("r", CNum (e N))]%string | N <- sort <=%R Ns] _ nd3.
  rewrite h3; first by rewrite -map_comp.
  move=> r f hr; have [j] := In_nth_seq [::] hr; rewrite size_map => hj <-; rewrite (nth_map 0) //.
  by case=> [<-|[<-|[<-|]]].
- by rewrite -map_comp; apply: eq_map.
- by rewrite -map_comp; apply: eq_map.
Qed.
(** The order in which the numbers are given, the figures asked for and sigma do not matter. *)
Theorem C136_any_order file Ns Ns' xl1 xl2 sigma sigma' pf pf' seed sp g h : perm_eq Ns Ns' ->
  poisson_trials file Ns xl1 xl2 sigma pf seed sp g h = poisson_trials file Ns' xl1 xl2 sigma' pf' seed sp g h.
Proof.
move=> pe; rewrite /CliModel.poisson_trials.
have -> : sort <=%R Ns = sort <=%R Ns' by apply/perm_sortP; [exact: le_total | exact: le_trans | exact: le_anti |].
by [].
Qed.
(** With a seed, everything printed and drawn is the same in every run. *)
Theorem C136_reproducible file Ns xl1 xl2 sigma pf q sp g h g' h' :
  (poisson_trials file Ns xl1 xl2 sigma pf (Some q) sp g h).2 = (poisson_trials file Ns xl1 xl2 sigma pf (Some q) sp g' h').2.
Proof.
rewrite /CliModel.poisson_trials.
have := C131_reproducible pdf nokw nobw uniform norm01 kde kde_pdf trunc pca_components svd_v reseed randn pyseed pysample curve closest
  file (sort <=%R Ns) "random" xl1 xl2 (default_loc1 R) (default_loc2 R) sigma sigma q sp false g h g' h'.
by case: (run_2d_poisson_trials _ _ _ _ _ _ _ _ _ _ _ _ _ _ _ _ _ _ _ _ _ _ _ _ _ _ _ g h) => ? [? ?] /=;
   case: (run_2d_poisson_trials _ _ _ _ _ _ _ _ _ _ _ _ _ _ _ _ _ _ _ _ _ _ _ _ _ _ _ g' h') => ? [? ?] /= [-> ->].
Qed.

End CliProps.
