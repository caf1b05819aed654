(** Concrete cases for C135 to C138: the records of print_res's docstring, and the constant oracles of
    DensityExamples with the data of PoisExExamples and AdcExamples. *)
Set Warnings "-notation-overridden,-ambiguous-paths".
From Coq Require Import String ZArith.
From mathcomp Require Import all_ssreflect all_algebra.
From mathcomp Require Import zify.
From Verif Require Import Py Nd Xnum XnumProofs UtilModel DensityModel NdProofs DensityExamples UtilModel2
  StModel StProps StProps3 StProps5 DrawModel DrawProps DrawProps3 ContModel PoisModel StExModel StExProps StExExamples PoisExModel PoisExProps PoisExProps2 PoisExProps3
  PoisExExamples AdcModel AdcProps AdcProps2 AdcProps3 AdcProps4 AdcExamples CliModel CliProps CliProps2 CliProps3.
Set Implicit Arguments. Unset Strict Implicit. Unset Printing Implicit Defensive.
Import Order.Theory GRing.Theory Num.Theory.
Local Open Scope ring_scope.

Section CliExamples.
Variable R : rcfType.

(** ** C135: examples.py:63-75, the docstring. *)
Definition rec_ (a : string) (b : int) : dict (cell R) := [:: ("a", CText R a); ("b", CInt R b)]%string.
(** [re.search] of a pattern that is a letter: whether the text begins with it (enough here); a cell
    that is not a text raises TypeError. *)
Definition starts (p : string) (c : cell R) : res bool := if c is CText s then Ok (String.prefix p s) else Err TypeError.
Example C135_met : print_res [:: rec_ "foo" 1; rec_ "bar" 2; rec_ "fun" 3] [:: "b"; "a"]%string (Some "a"%string) (starts "f") None =
  Ok ([:: "b"; "a"]%string, [:: [:: CInt R 1; CText R "foo"]; [:: CInt R 3; CText R "fun"]]).
Proof.
rewrite (@C135_table R _ _ _ _ _ id (fun r => if get r "a"%string is Some (CText s) then String.prefix "f" s else false)) //.
  by apply/repeatsP.
move=> r; case=> [<-|[<-|[<-|//]]]; split=> //=; (try by eexists); by move=> _ f [<-|[<-|//]].
Qed.
Example C135_filter_met : print_res [:: rec_ "foo" 1; rec_ "bar" 2] [:: "b"]%string (Some "a"%string) (starts "x")
    (Some (fun r => Ok (put r "a"%string (CText R "xx")))) = Ok ([:: "b"]%string, [:: [:: CInt R 1]; [:: CInt R 2]]).
Proof. by []. Qed.
Example C135_twice_met : print_all [:: rec_ "foo" 1] [:: "a"; "a"]%string = Err ValueError.
Proof. by apply: C135_twice => /repeatsP. Qed.
Example C135_missing_met : print_all [:: rec_ "foo" 1] [:: "a"; "c"]%string = Err KeyError.
Proof.
have nd2 : List.NoDup [:: "a"; "c"]%string by apply/repeatsP.
have [_ h] := @C135_all R [:: rec_ "foo" 1] _ nd2.
by apply: h; exists (rec_ "foo" 1), "c"%string; split; [left | right; left |].
Qed.
Example C135_no_search_column_met : print_res [:: rec_ "foo" 1; [:: ("b", CInt R 1)]; rec_ "bar" 2]%string [:: "b"]%string
  (Some "a"%string) (starts "f") None = Err KeyError.
Proof.
apply: (@C135_no_search_column R [:: rec_ "foo" 1] [:: ("b", CInt R 1)]%string [:: rec_ "bar" 2] _ _ _ None id
  (fun r => if get r "a"%string is Some (CText s) then String.prefix "f" s else false)) => //; first by apply/repeatsP.
by move=> r [<-|//]; split=> //=; [eexists | move=> _ f [<-|]].
Qed.

(** ** C136 *)
Notation solve_ := (poisson_solve (@tpdf R) tt tt (@tunif R) (tones R) (@tkde R) (@tkde_pdf R) id (@pones R) (@psvd R)
  greseed (@gdraw R) hsample (@pcurve R) (@ptri R) (@pclosest R) (@pfield R)).
Notation trials_ := (poisson_trials (@tpdf R) tt tt (@tunif R) (tones R) (@tkde R) (@tkde_pdf R) id (@pones R) (@psvd R)
  greseed (@gdraw R) hseed hsample (@pcurve R) (@pclosest R)).
Example C136_solve_met : solve_ (Ok (pds R)) 7%:R [:: "all"]%string (Some 5%:Z) (Some "out"%string) 0%N 9%N =
  ((7%N, 10%N), ([::], Ok [:: -1; -2%:R])).
Proof.
have [P [P1 [el [en es] hs]]] := ex_all R.
have [r [w [d0 [k [eP _ [_ em] _ _]]]]] := hs [:: 1; 0]%N isT (fun e => ltac:(discriminate e)).
exact: (@C136_solve R (tab R) unit unit (@tpdf R) tt tt (@tunif R) (tones R) (@tkde R) (@tkde_pdf R) id (@pones R) (@psvd R)
  nat greseed (@gdraw R) nat hsample (@pcurve R) (@ptri R) (@pclosest R) (@pfield R) (Ok (pds R)) 7%:R [:: "all"]%string (Some 5%:Z)
  (Some "out"%string) 0%N 9%N 7%N (pds R) (ps R) 2 [:: 1; 0]%N 10%N (P [:: 1; 0]%N) (P1 [:: 1; 0]%N) _ el en erefl eP em).
Qed.
(** The numbers 2 and 1: the table begins with 1. *)
Example C136_trials_met : exists figs, trials_ (Ok (pds R)) [:: Posz 2; Posz 1] (-4%:R, 0) (-4%:R, 0) 7%:R [:: "all"]%string (Some 5%:Z)
    (Some "."%string) 0%N 9%N =
  ((7%N, 6%N), (figs, Ok ([:: "N"; "mud_pt"; "r"]%string,
      [:: [:: CInt R 1; CArr [:: -1; -2%:R]; CNum (Fin 1)]; [:: CInt R 2; CArr [:: -1; -2%:R]; CNum (Fin 1)]]))) /\
  [seq pf_file f | f <- figs] = [:: Some "solution_n1"; Some "solution_n2"]%string.
Proof.
have [P [P1 [el [en es] hs]]] := ex_all R.
have [|Ns' [figs [pe so -> ef _]]] := @C136_trials R (tab R) unit unit (@tpdf R) tt tt (@tunif R) (tones R) (@tkde R) (@tkde_pdf R) id (@pones R) (@psvd R)
  nat greseed (@gdraw R) nat hseed hsample (@pcurve R) (@pclosest R) (Ok (pds R)) [:: Posz 2; Posz 1] (-4%:R, 0) (-4%:R, 0)
  7%:R [:: "all"]%string (Some 5%:Z) (Some "."%string) 0%N 9%N 7%N (pds R) (ps R) 2 [:: 1; 0]%N 6%N
  (fun N => P (sensors_of [:: 1; 0]%N N)) (fun N => P1 (sensors_of [:: 1; 0]%N N)) (fun _ => [:: -1; -2%:R]) (fun _ => Fin 1)
  (fun _ _ => ([:: -4%:R; 0], [:: 1; 1])) (fun _ _ => ([:: -4%:R; 0], [:: 2%:R; 2%:R])) el en erefl.
- by move=> N; rewrite !inE => /orP [] /eqP ->; apply: hs.
have e : Ns' = [:: Posz 1; Posz 2].
  apply: (sorted_eq (leT := <=%R) (@le_trans _ _) (@le_anti _ _) so) => //.
  by rewrite (perm_trans pe).
by rewrite e in ef *; exists figs; split.
Qed.

(** ** C137 *)
(** A data set with one sensor and six times; "wind" and "grid" come from the oracles. *)
Definition cds : dset R :=
  [:: ("domain", VArr (adom R)); ("times", VArr (atimes R)); ("lam_ref", VArr (nd1 [:: -1; -1]));
      ("true_vals", VArr (Nd [:: 6]%N [seq i%:R | i <- iota 10 6])); ("lam", VArr (alam R)); ("data", VArr (adat R))]%string.
Definition cwind (ds : dset R) : res (seq R * seq R) := Ok ([:: 0; 1], [:: 2%:R; 3%:R]).
Definition cgrid (ds : dset R) : res (dset R) := Ok (agrid R).
Definition czoom (s : string) : res ((R * R) * (R * R)) := Err ValueError.
Notation estimate := (estimate (@tpdf R) tt tt (@tunif R) (tones R) (@tkde R) (@tkde_pdf R)).
Notation expected_ratio := (expected_ratio (@tpdf R) tt tt (@tunif R) (tones R) (@tkde R) (@tkde_pdf R)).
Notation time_window := (adcirc_time_window (@tpdf R) tt tt (@tunif R) (tones R) (@tkde R) (@tkde_pdf R) id (@pones R) (@psvd R) (@pcurve R) (@ptri R)
  (@astamps R) (@aparse R)).
Notation adc := (adcirc_solve (@tpdf R) tt tt (@tunif R) (tones R) (@tkde R) (@tkde_pdf R) id (@pones R) (@psvd R) greseed (@gdraw R) (@pcurve R) (@ptri R)
  (@astamps R) (@aparse R) (fun _ _ _ => Ok tt) cwind cgrid czoom).

Definition cmeas : nd R := noisy_col [seq i%:R | i <- iota 10 6] (gdraw R 6 5).1.
Definition cst : st R := ST (Some (adom R)) (Some (alam R)) (Some [:: -1; -1]) (Some (adat R)) (Some (NArr cmeas))
  (Some (NArr (Nd [:: 6; 1]%N [seq i%:R | i <- iota 10 6]))) (Some "u"%string) (Some (default_sensors R)) (Some (atimes R)) (Some (5%:R / 100%:R)).
Lemma c_load : load_adcirc_prob greseed (@gdraw R) (Ok cds) 7%:R (Some 5%:Z) (Nd [:: 1; 2]%N [:: 0; 0]) 0%N = (11%N, Ok (cds, cst)).
Proof.
rewrite (@C122_adcirc_loads R _ greseed (@gdraw R) (@size_gdraw R) cds 7%:R (Some 5%:Z) 0%N 5%N 3 2 1 6 (adom R) _ (atimes R) (nd1 [:: -1; -1])
  (Nd [:: 6]%N [seq i%:R | i <- iota 10 6]) (alam R) (adat R)) //.
by case=> [|[|//]] _; rewrite /ent /= oppr_le0 ler01 andbT ler_opp2 (ler_nat R 1 4).
Qed.
Lemma c_setup : setup cst 3 2 1 6 (adat R) (alam R) (default_sensors R) (atimes R).
Proof. by split; (repeat split) => //; left. Qed.

Lemma c_window w lo hi (T : seq nat) title sp pf : aparse R w.1 = Ok lo -> aparse R w.2 = Ok hi -> inside (data (atimes R)) lo hi = T -> size T = 2%N ->
  exists F P P' : _, [/\ (time_window (AST cst None) w "pca" 2 50 None title sp (FigNames pf) false).2 = (F, Ok P),
    estimate P = (P', Ok [:: -1; -2%:R]) & (expected_ratio P').2 = Ok (Fin 1) /\ (pf = [:: "updated_dist"]%string -> size F = 1%N)].
Proof.
move=> ea eb eT sT.
have T0 : T <> [::] by case: (T) sT.
have c1 : Nd.shape (acomp R) = [:: 2%N; size T] by rewrite sT.
have ec : pones (nd2 (size T) [seq [seq (nth 0 (data cmeas) j - ent (adat R) i j) / (5%:R / 100%:R) | j <- T] | i <- iota 0 3]) (Posz 2) = Ok (acomp R).
  by rewrite /pones sT.
have := @C133_pca_run R (tab R) unit unit (@tpdf R) tt tt (@tunif R) (tones R) (@tkde R) (@tkde_pdf R) id (@pones R) (@psvd R)
  (@pcurve R) (@ptri R) (@astamps R) (@aparse R) (AST cst None) 3 2 6 (adat R) (alam R) (default_sensors R) (atimes R) (data (atimes R)) (adom R) (5%:R / 100%:R) cmeas w lo hi 2 (acomp R) 50 None title
  sp (FigNames pf) false c_setup erefl erefl erefl erefl erefl erefl isT erefl erefl ea eb.
rewrite eT => /(_ T0 ec erefl c1 isT) [P [[tm _ eP] [rX sX] [eD eW] _ h]].
have [f1 f2 f3 f4 f5] := fresh eP.
have d2 : dim (ddom P) 1 = 2%N by rewrite eD.
have [P1 [em er ew ee ed]] := estimateE f1 f2 f3 f4 sX d2 eW.
rewrite rX in em.
have h5' : xvbop (@xmul R) (nseq 3 (Fin 1)) (d_w P1) = Ok (nseq 3 (Fin 1)) by rewrite ew /xvbop /= mulr1.
have h6' : forall i, (i < 2)%N -> let xr := stretched (wq R i.+1) (ddom P) in
     pcurve "pdf" (tones R) xr i = Ok (a_cv 1 i) /\ pcurve "kde" (tones R) xr i = Ok (a_cv 2%:R i) by rewrite eD.
have [P' [h1 h2 h3 h4]] := h P1 [:: -1; -2%:R] (Fin 1) [:: -1; -1] (tones R) (nseq 3 (Fin 1)) (nseq 3 (Fin 1)) (tones R) (a_cv 1) (a_cv 2%:R)
  em erefl ee (And3 erefl isT isT) (And4 ed er h5' erefl) h6'.
have [F [e sF]] : exists F, (time_window (AST cst None) w "pca" 2 50 None title sp (FigNames pf) false).2 = (F, Ok P') /\
    (pf = [:: "updated_dist"]%string -> size F = 1%N) by rewrite h1; eexists; split; [reflexivity | move=> ->].
exists F, P', P'; split=> //.
have [_ u1 _ _ _] := estimate_fresh f1 f2 f3 f4 em.
by rewrite h2 (ratio_up _ _ ee).
Qed.

(** Two windows, the densities asked for. *)
Example C137_met : exists figs, adc (Ok cds) 2 [:: "a"; "c"]%string [:: "b"; "d"]%string [::] 1 [::] [::] 7%:R "value"%string "zoom"%string 0
    [:: "updated_dist"]%string (Some 5%:Z) None 0%N =
  (11%N, (AdcFigs None None figs, Ok (Some ([:: "t_start"; "t_end"; "mud_pt"; "r"]%string,
      [:: [:: CText R "a"; CText R "b"; CArr [:: -1; -2%:R]; CNum (Fin 1)];
          [:: CText R "c"; CText R "d"; CArr [:: -1; -2%:R]; CNum (Fin 1)]])))).
Proof.
have [F [P [P' [e1 e2 [e3 sF]]]]] := @c_window ("a", "b")%string 0 3%:R [:: 1; 2]%N (Some "$T_{1}$"%string) None [:: "updated_dist"]%string erefl erefl (inside1 R) erefl.
have [G [Q [Q' [e1' e2' [e3' _]]]]] := @c_window ("c", "d")%string 2%:R 5%:R [:: 3; 4]%N (Some "$T_{2}$"%string) None [:: "updated_dist"]%string erefl erefl (inside2 R) erefl.
exists (F ++ G).
rewrite (@C137_windows R (tab R) unit unit (@tpdf R) tt tt (@tunif R) (tones R) (@tkde R) (@tkde_pdf R) id (@pones R) (@psvd R) nat greseed (@gdraw R) (@pcurve R) (@ptri R)
  (@astamps R) (@aparse R) (fun _ _ _ => Ok tt) cwind cgrid czoom (Ok cds) 2 [:: "a"; "c"]%string [:: "b"; "d"]%string [::] 1 [::] [::] 7%:R "value"%string "zoom"%string 0
    [:: "updated_dist"]%string (Some 5%:Z) None 0%N 11%N cds cst None None (nth [::] [:: F; G]) (nth P [:: P; Q]) (fun _ => [:: -1; -2%:R]) (fun _ => Fin 1) c_load) //.
- by rewrite /= cats0.
- case=> [|[|//]] _; split=> //; [by exists P' | by exists Q'].
Qed.
(** The second of three windows has an unknown date: no table, but the figure of the first window. *)
Example C137_stops_met : exists figs, size figs = 1%N /\ adc (Ok cds) 2 [:: "a"; "x"; "c"]%string [:: "b"; "d"; "d"]%string [::] 1 [::] [::] 7%:R "value"%string "zoom"%string 0
    [:: "updated_dist"]%string (Some 5%:Z) None 0%N = (11%N, (AdcFigs None None figs, Err ValueError)).
Proof.
have [F [P [P' [e1 e2 [e3 sF]]]]] := @c_window ("a", "b")%string 0 3%:R [:: 1; 2]%N (Some "$T_{1}$"%string) None [:: "updated_dist"]%string erefl erefl (inside1 R) erefl.
exists F; split; first exact: sF.
rewrite (@C137_stops R (tab R) unit unit (@tpdf R) tt tt (@tunif R) (tones R) (@tkde R) (@tkde_pdf R) id (@pones R) (@psvd R) nat greseed (@gdraw R) (@pcurve R) (@ptri R)
  (@astamps R) (@aparse R) (fun _ _ _ => Ok tt) cwind cgrid czoom (Ok cds) 2 [:: "a"; "x"; "c"]%string [:: "b"; "d"; "d"]%string [::] 1 [::] [::] 7%:R "value"%string "zoom"%string 0
    [:: "updated_dist"]%string (Some 5%:Z) None 0%N 11%N cds cst None None (nth [::] [:: F]) (nth P [:: P]) (fun _ => [:: -1; -2%:R]) (fun _ => Fin 1) 1 [::] ValueError c_load) //.
- by rewrite /= !cats0.
- by case=> [|//] _; split=> //; exists P'.
Qed.
(** No end times: nothing is solved, but the time series and the wind are shown. *)
Example C137_no_windows_met : exists ts, adc (Ok cds) 2 [:: "a"; "c"]%string [::] [::] 1 [::] [::] 7%:R "value"%string "zoom"%string 0
    [:: "full_ts"]%string (Some 5%:Z) (Some "out"%string) 0%N = (11%N, (AdcFigs (Some (ts, Some "out/adcirc_full_ts"%string)) None [::], Ok None)).
Proof.
eexists.
rewrite (@C137_no_windows R (tab R) unit unit (@tpdf R) tt tt (@tunif R) (tones R) (@tkde R) (@tkde_pdf R) id (@pones R) (@psvd R) nat greseed (@gdraw R) (@pcurve R) (@ptri R)
  (@astamps R) (@aparse R) (fun _ _ _ => Ok tt) cwind cgrid czoom (Ok cds) 2 [:: "a"; "c"]%string [::] [::] 1 [::] [::] 7%:R "value"%string "zoom"%string 0
    [:: "full_ts"]%string (Some 5%:Z) (Some "out"%string) 0%N 11%N cds cst
   (Some (full_series (atimes R) cmeas (adat R) 6 3 ++ [:: Wind [:: 0; 1] [:: 2%:R; 3%:R]] ++ window_marks [::] (Some [::]), file_in (Some "out"%string) "adcirc_full_ts")) None c_load) //.
- split=> //=; eexists; first reflexivity; eexists; first reflexivity.
  exact: (@C134_ts_plot R (@aparse R) cst 3 2 1 6 (adat R) (alam R) (default_sensors R) (atimes R) cmeas [::] [::] (Some ([:: 0; 1], [:: 2%:R; 3%:R])) (Some [::]) (Some [::]) (Some "out"%string) c_setup).
- by right.
Qed.
(** Four windows and the time series. *)
Example C137_too_many_met : adc (Ok cds) 2 [:: "a"; "c"; "a"; "c"]%string [:: "b"; "d"; "d"; "b"]%string [:: "b"]%string 1 [::] [::] 7%:R "value"%string "zoom"%string 0
    [:: "all"]%string (Some 5%:Z) (Some "out"%string) 0%N = (11%N, (AdcFigs None None [::], Err IndexError)).
Proof.
apply: (@C137_too_many R (tab R) unit unit (@tpdf R) tt tt (@tunif R) (tones R) (@tkde R) (@tkde_pdf R) id (@pones R) (@psvd R) nat greseed (@gdraw R) (@pcurve R) (@ptri R)
  (@astamps R) (@aparse R) (fun _ _ _ => Ok tt) cwind cgrid czoom (Ok cds) 2 _ _ _ 1 _ _ 7%:R _ _ 0 _ (Some 5%:Z) _ 0%N 11%N cds cst [:: 0; 1] [:: 2%:R; 3%:R]
  3 2 1 6 (adat R) (alam R) (default_sensors R) (atimes R) cmeas [:: (0, 3%:R); (2%:R, 5%:R); (0, 5%:R); (2%:R, 3%:R)] [:: 3%:R] c_load) => //.
- by right; left.
- exact: c_setup.
- by do 4 case=> //.
- by case.
Qed.

(** ** C138 *)
Notation gen := (poisson_generate greseed (@gdraw R) (@gsolve R) (@gsolve_gamma R) (VNone R)).
Notation fen := (run_fenics greseed (@gdraw R) (@gsolve R) (@gsolve_gamma R)).
(** Two runs with another gamma: the second replaces the first; with another number of sensors it does
    not. *)
Example C138_met : exists g1 g2 g3 ds ds2 ds3,
  [/\ fen 3 2 [:: -4%:R; -4%:R] [:: 0; 0] (0, 0) (1, 1) (-3%:R) (Some 21%:Z) (VNone R) 0%N = (g1, Ok ds),
      fen 3 2 [:: -4%:R; -4%:R] [:: 0; 0] (0, 0) (1, 1) (-2%:R) (Some 21%:Z) (VNone R) g1 = (g2, Ok ds2),
      fen 3 1 [:: -4%:R; -4%:R] [:: 0; 0] (0, 0) (1, 1) (-2%:R) (Some 21%:Z) (VNone R) g1 = (g3, Ok ds3),
      open_file (gen true 3 2 [:: -4%:R; -4%:R] [:: 0; 0] (0, 0) (1, 1) (-2%:R) (Some 21%:Z) None
        (gen true 3 2 [:: -4%:R; -4%:R] [:: 0; 0] (0, 0) (1, 1) (-3%:R) (Some 21%:Z) None [::] 0%N).1.2 g1).1.2 "./s3_n2_d2_res" = Ok ds2 &
      open_file (gen true 3 1 [:: -4%:R; -4%:R] [:: 0; 0] (0, 0) (1, 1) (-2%:R) (Some 21%:Z) None
        (gen true 3 2 [:: -4%:R; -4%:R] [:: 0; 0] (0, 0) (1, 1) (-3%:R) (Some 21%:Z) None [::] 0%N).1.2 g1).1.2 "./s3_n2_d2_res" = Ok ds].
Proof.
case e1: (fen 3 2 [:: -4%:R; -4%:R] [:: 0; 0] (0, 0) (1, 1) (-3%:R) (Some 21%:Z) (VNone R) 0%N) => [g1 [ds|x]]; last by [].
case e2: (fen 3 2 [:: -4%:R; -4%:R] [:: 0; 0] (0, 0) (1, 1) (-2%:R) (Some 21%:Z) (VNone R) g1) => [g2 [ds2|x]]; last by [].
case e3: (fen 3 1 [:: -4%:R; -4%:R] [:: 0; 0] (0, 0) (1, 1) (-2%:R) (Some 21%:Z) (VNone R) g1) => [g3 [ds3|x]]; last by [].
exists g1, g2, g3, ds, ds2, ds3; split=> //.
- by have [_] := @C138_twice R nat greseed (@gdraw R) (@gsolve R) (@gsolve_gamma R) (VNone R) 3 2 _ _ _ _ _ _ 3 2 _ _ _ _ _ _ None [::] 0%N g1 g2 ds ds2 e1 e2.
- by have [_] := @C138_twice R nat greseed (@gdraw R) (@gsolve R) (@gsolve_gamma R) (VNone R) 3 2 _ _ _ _ _ _ 3 1 _ _ _ _ _ _ None [::] 0%N g1 g3 ds ds3 e1 e3.
Qed.
(** mud_paper with FEniCS and without the data: 1000 samples, 500 sensors are computed in vain. *)
Notation paper := (paper_poisson (@tpdf R) tt tt (@tunif R) (tones R) (@tkde R) (@tkde_pdf R) id (@pones R) (@psvd R)
  greseed (@gdraw R) (@gdraw R) hseed hsample (@pcurve R) (@ptri R) (@pclosest R) (@pfield R) (@gsolve R) (@gsolve_gamma R) (VNone R)).
Example C138_paper_met : exists ds disk', [/\ paper true "." (Err ValueError) (Some 21%:Z) [::] 0%N 9%N =
    ((21%N, 9%N, disk'), ([::], [::], Err FileNotFoundError)),
    get disk' "./s1000_n500_d2_res" = Some ds & get disk' "data/poisson_data.pkl" = None].
Proof.
case e: (fen (Posz 1000) (Posz 500) [:: -4%:R; -4%:R] [:: 0; 0] (0, 0) (1, 1) (-3%:R) (Some 21%:Z) (VNone R) 0%N) => [g1 [ds|x]]; last by [].
exists ds; exact: (@C138_paper_fenics_refuted R (tab R) unit unit (@tpdf R) tt tt (@tunif R) (tones R) (@tkde R) (@tkde_pdf R) id (@pones R) (@psvd R)
  nat greseed (@gdraw R) (@gdraw R) nat hseed hsample (@pcurve R) (@ptri R) (@pclosest R) (@pfield R) (@gsolve R) (@gsolve_gamma R) (VNone R) "." (Err ValueError)
  (Some 21%:Z) [::] 0%N 9%N g1 21%N ds erefl e erefl).
Qed.
End CliExamples.
