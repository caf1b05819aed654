(** Model of the whole command mud_paper (examples/examples.py): figures 1 to 6 (PaperModel), 7 to 9
    (CliModel), and the ADCIRC figures 10 to 13. *)
Set Warnings "-notation-overridden,-ambiguous-paths".
From Coq Require Import String ZArith.
From mathcomp Require Import all_ssreflect all_algebra.
From Verif Require Import Py Nd Xnum LinAlg Dmx LgpModel UtilModel DensityModel BayesModel UtilModel2 StModel DrawModel ContModel PoisModel StExModel
  LinExModel PoisExModel AdcModel SimpleModel CompModel LinFigModel CliModel PaperModel.
Set Implicit Arguments. Unset Strict Implicit. Unset Printing Implicit Defensive.
Import Order.Theory GRing.Theory Num.Theory.
Local Open Scope ring_scope.

Section All.
Variable R : rcfType.
Notation xnum := (xnum R).
Notation nd := (nd R).
Notation dset := (dset R).
(** Oracles as in CliModel. *)
Variables (D KW BW : Type) (pdf : D -> KW -> nd -> res (pdfval xnum)) (nokw : KW) (nobw : BW)
  (uniform : seq R -> seq R -> D) (norm01 : D) (kde : nd -> BW -> seq xnum -> res D)
  (kde_pdf : D -> nd -> res (seq xnum)) (trunc : R -> R).
Variables (pca_components : nd -> int -> res nd) (svd_v : nd -> res nd).
Variables (G : Type) (reseed : int -> res G) (randn rand : nat -> G -> seq R * G).
Variables (H : Type) (pyseed : int -> H) (pysample : nat -> H -> seq nat * H).
Variable curve : string -> D -> seq (R * R) -> int -> res (seq R * seq R).
Variable tri : seq R -> seq R -> seq R -> res unit.
Variable closest : R * R.
Variable field : dset -> res (seq R * seq R * seq R).
Variables (stamps : nd -> res (seq R)) (parse : string -> res R) (mesh : nd -> nd -> nd -> res unit).
Variables (solve : seq R -> R -> R -> R) (solve_gamma : R -> R -> R -> R) (u : pyv R).
Variables (wind : dset -> res (seq R * seq R)) (grid : dset -> res dset).
(** Oracles as in PaperModel. *)
Variables (expf : R -> R) (cpi : R) (K : Type) (ckde : nd -> unit -> seq xnum -> res K) (ckde_pdf : K -> nd -> res (seq xnum))
  (ckde_at : K -> seq (seq R) -> res (seq R)) (ln : R -> R).
Variable ns : seq R -> res (seq (seq R)).
Variables (svdvals : dmx R -> seq R) (svd : forall m n, 'M[R]_(m, n) -> svd_out R m n).

Notation time_window := (adcirc_time_window pdf nokw nobw uniform norm01 kde kde_pdf trunc pca_components svd_v curve tri
  stamps parse).
Notation linear := (paper_linear expf cpi ckde ckde_pdf ckde_at trunc ln ns reseed randn rand svdvals svd).
Notation poisson := (paper_poisson pdf nokw nobw uniform norm01 kde kde_pdf trunc pca_components svd_v reseed randn rand
  pyseed pysample curve tri closest field solve solve_gamma u).

(** A figure of any kind, and its file. *)
Inductive anypic := ALin of pic R | APois of pfig R | AMesh of meshfig R | ATs of seq (tsmark R) & option string | AWin of afig R.
Definition any_file (f : anypic) : option string :=
  match f with
  | ALin f => pic_file f | APois f => pf_file f | AMesh f => mf_file f | ATs _ f => f | AWin f => af_file f
  end.

(** examples.py:958-960 *)
Definition t1 : string * string := ("2018-01-11 01:00:00", "2018-01-11 07:00:00")%string.
Definition t2 : string * string := ("2018-01-04 11:00:00", "2018-01-04 14:00:00")%string.
Definition t3 : string * string := ("2018-01-07 00:00:00", "2018-01-09 00:00:00")%string.
(** examples.py:983-987 *)
Definition paper_labels : seq (string * R) :=
  [:: ("2018-01-10 14:00:00", 18%:R / 10%:R); ("2018-01-04 00:00:00", 18%:R / 10%:R); ("2018-01-07 20:00:00", 18%:R / 10%:R)]%string.
(** examples.py:993-1058: window, number of components, title, limits. *)
Definition paper_windows : seq ((string * string) * int * string * option (seq R)) :=
  [:: (t1, Posz 1, "$T_1$"%string, Some [:: 65%:R; 1600%:R]); (t1, Posz 2, "$T_1$"%string, None);
      (t2, Posz 1, "$T_2$"%string, Some [:: 40%:R; 4000%:R]); (t2, Posz 2, "$T_2$"%string, Some [:: 35%:R; 10%:R ^+ 4]);
      (t3, Posz 1, "$T_3$"%string, Some [:: 30%:R; 3000%:R]); (t3, Posz 2, "$T_3$"%string, Some [:: 160%:R; 14%:R * 10%:R ^+ 3])].
(** The calls of adcirc_time_window, one after the other with the same problem. *)
Fixpoint paper_window_figs (a : ast R) (sp : string) (l : seq ((string * string) * int * string * option (seq R)))
  : seq (afig R) * res unit :=
  if l is (w, nc, title, yl) :: l' then
    let: (a, (fs, r)) := time_window a w "pca" nc 50 yl (Some title) (Some sp) (FigString "updated_dist") false in
    match r with
    | Err e => (fs, Err e)
    | Ok _ => let t := paper_window_figs a sp l' in (fs ++ t.1, t.2)
    end
  else ([::], Ok tt).
(** examples.py:962-976: the two meshes. *)
Definition paper_mesh (gr : dset) (value : string) (zoom : (R * R) * (R * R)) (sp : string) : res (meshfig R) :=
  tri_mesh_plot mesh gr value (Some [:: Posz 0]) (Some zoom) (- 10%:R) (Some sp).
(** -72.48, 0.47, 40.70, 0.32 and -72.5, 0.1, 40.85, 0.04 *)
Definition zoom1 : (R * R) * (R * R) := ((- (1812%:R / 25%:R), 47%:R / 100%:R), (407%:R / 10%:R, 32%:R / 100%:R)).
Definition zoom2 : (R * R) * (R * R) := ((- (145%:R / 2%:R), 1 / 10%:R), (817%:R / 20%:R, 4%:R / 100%:R)).

(** One figure; an exception ends the run. *)
Definition one T (r : res T) (mk : T -> anypic) (next : seq anypic * res unit) : seq anypic * res unit :=
  match r with Err e => ([::], Err e) | Ok f => let (fs, r) := next in (mk f :: fs, r) end.
(** examples.py:957-1059: the figures made of the problem loaded. *)
Definition adcirc_figs (ds : dset) (s : st R) (sp : string) : seq anypic * res unit :=
  one (gr <- grid ds ;; paper_mesh gr "wind_speed_mult_0" zoom1 sp) AMesh
  (one (gr <- grid ds ;; paper_mesh gr "DP" zoom2 sp) AMesh
  (one (w <- wind ds ;; adcirc_ts_plot parse s [:: t1; t2; t3] (Some w) (Some paper_labels) (Some sp)) (fun f => ATs f.1 f.2)
  (let t := paper_window_figs (AST s None) sp paper_windows in (map AWin t.1, t.2)))).
(** examples.py:950-1059: the ADCIRC part, with the data file as in paper_poisson_data. *)
Definition paper_adcirc (save_path : string) (remote : res dset) (disk : dict dset) (g : G)
  : (G * dict dset) * (seq anypic * res unit) :=
  let a_path := path_join save_path "data/adcirc-si.pkl" in
  match (if get disk a_path is Some _ then Ok disk else rmap (put disk a_path) remote) with
  | Err e => ((g, disk), ([::], Err e))
  | Ok disk =>
    match load_adcirc_prob reseed randn (open_file disk a_path) (5%:R / 100%:R) (Some (Posz 21)) (default_sensors R) g with
    | (g, Err e) => ((g, disk), ([::], Err e))
    | (g, Ok (ds, s)) => ((g, disk), adcirc_figs ds s (path_join save_path "figures"))
    end
  end.

(** examples.py:850-1059 mud_paper, run after the group (91-120).  [remote_p], [remote_a]: what the two
    downloads give.  The states afterwards, the figures in the order they are finished, the table
    printed (None: not reached), and whether it raises.  Simplification: save_path is given (the
    command line has a default). *)
Definition mud_paper (fenics : bool) (save_path : string) (remote_p remote_a : res dset) (seed : option int)
    (disk : dict dset) (g : G) (h : H) : (G * H * dict dset) * (seq anypic * option (table R) * res unit) :=
  match examples_group reseed seed g with
  | Err e => ((g, h, disk), ([::], None, Err e))
  | Ok g =>
    let: (g, (fs1, r)) := linear ""%string (Some save_path) seed g in
    if r is Err e then ((g, h, disk), (map ALin fs1, None, Err e)) else
    let: ((g, h, disk), (fs7, fs9, r)) := poisson fenics save_path remote_p seed disk g h in
    let figs := map ALin fs1 ++ map APois fs7 ++ map APois fs9 in
    match r with
    | Err e => ((g, h, disk), (figs, None, Err e))
    | Ok t =>
      let: ((g, disk), (fs, r)) := paper_adcirc save_path remote_a disk g in
      ((g, h, disk), (figs ++ fs, Some t, r))
    end
  end.
End All.
