(** Concrete cases for C131 and C132: three samples of two parameters, two sensors, and the constant
    oracles of DensityExamples. *)
Set Warnings "-notation-overridden,-ambiguous-paths".
From Coq Require Import String.
From mathcomp Require Import all_ssreflect all_algebra.
From Verif Require Import Py Nd Xnum XnumProofs UtilModel DensityModel NdProofs DensityExamples UtilModel2
  StModel StProps StProps5 DrawModel PoisModel StExModel StExProps StExExamples PoisExModel PoisExProps PoisExProps2 PoisExProps3.
Set Implicit Arguments. Unset Strict Implicit. Unset Printing Implicit Defensive.
Import Order.Theory GRing.Theory Num.Theory.
Local Open Scope ring_scope.

Section PoisExExamples.
Variable R : rcfType.
Definition pdom : nd R := Nd [:: 2; 2]%N [:: -4%:R; 0; -4%:R; 0].
(** The second sensor is to the left of the first. *)
Definition psens : nd R := Nd [:: 2; 2]%N [:: 1; 0; 0; 1].
Definition ptv : nd R := Nd [:: 2]%N [:: 1; 2%:R].
Definition plam : nd R := Nd [:: 3; 2]%N [:: -1; -2%:R; -3%:R; -1; 0; -4%:R].
Definition pdat : nd R := Nd [:: 3; 2]%N [:: 1; 2%:R; 3%:R; 4%:R; 5%:R; 6%:R].
Definition pds : dset R :=
  [:: ("domain", VArr pdom); ("sensors", VArr psens); ("true_vals", VArr ptv); ("lam", VArr plam); ("data", VArr pdat)]%string.
Lemma pds_data : poisson_data pds 3 2 2 pdom psens ptv plam pdat.
Proof. by split; split. Qed.

(** PCA: components of ones; random.sample: the numbers rotated by the state. *)
Definition pones (A : nd R) (k : int) : res (nd R) := Ok (nd2 (dim A 1) (nseq (absz k) (nseq (dim A 1) 1))).
Definition psvd (A : nd R) : res (nd R) := Ok A.
Definition hseed (q : int) : nat := absz q.
Definition hsample (n h : nat) : seq nat * nat := (rot (h %% n) (iota 0 n), h.+1).
(** The curve: the interval itself at the height 1 (for a density) or 2 (for a kde). *)
Definition pcurve (k : string) (d : tab R) (xr : seq (R * R)) (i : int) : res (seq R * seq R) :=
  let p := nth (0, 0) xr (absz i) in
  Ok ([:: p.1; p.2], nseq 2 (if (k =? "pdf")%string then 1 else 2%:R)).
Definition ptri (x y z : seq R) : res unit := guard ((size x == size y) && (size y == size z)) ValueError.
Definition pclosest : R * R := (-3%:R, -1).
Definition pfield (ds : dset R) : res (seq R * seq R * seq R) := Ok ([:: 0; 1; 0], [:: 0; 0; 1], [:: 1; 2%:R; 3%:R]).

Notation estimate := (estimate (@tpdf R) tt tt (@tunif R) (tones R) (@tkde R) (@tkde_pdf R)).
Notation expected_ratio := (expected_ratio (@tpdf R) tt tt (@tunif R) (tones R) (@tkde R) (@tkde_pdf R)).
Notation mud_problem := (st_mud_problem (tab R) id pones psvd).
Notation solved := (solved (@tpdf R) tt tt (@tunif R) (tones R) (@tkde R) (@tkde_pdf R) id pones psvd pcurve).
Notation run_trials := (run_2d_poisson_trials (@tpdf R) tt tt (@tunif R) (tones R) (@tkde R) (@tkde_pdf R) id pones psvd
  greseed (@gdraw R) hseed hsample pcurve pclosest).
Notation run_sol := (run_2d_poisson_sol (@tpdf R) tt tt (@tunif R) (tones R) (@tkde R) (@tkde_pdf R) id pones psvd
  greseed (@gdraw R) hsample pcurve ptri pclosest pfield).

(** With these oracles every ratio is 1, so the first sample is the MUD point. *)
Ltac crunch := rewrite ?mulr1 ?mul1r ?oner_eq0 ?divr1 ?mulr0 ?mul0r ?ltxx ?ltr01 ?(lt_gtF ltr01) /=.
Lemma estimateE (P : dprob R (tab R)) : d_up P = None -> d_in P = None -> d_pr P = None -> d_ob P = None ->
  Nd.shape (dX P) = [:: 3; 2]%N -> dim (ddom P) 1 = 2%N -> d_w P = nseq 3 (Fin 1) ->
  exists P1, [/\ estimate P = (P1, Ok (nth [::] (rows (dX P)) 0)), d_r P1 = Some (nseq 3 (Fin 1)), d_w P1 = nseq 3 (Fin 1),
    (expected_ratio P1).2 = Ok (Fin 1) & default_initial (@tunif R) P = Ok (tones R)].
Proof.
case: P => X y dm i w r up ini pr ob id pd od /= -> -> -> -> sh d2 ->.
have di : default_initial (@tunif R) (DP X y dm i (nseq 3 (Fin 1)) r None None None None id pd od) = Ok (tones R).
  by rewrite /default_initial /= d2.
rewrite /DensityModel.estimate /mud_point /ensure_up /fit /fill_defaults; cbn [d_up d_in d_pr d_ob].
rewrite /set_initial di /=; do 3 crunch.
rewrite /row_at /= /dim sh /=; eexists; split=> //=; first by rewrite invr1.
rewrite /DensityModel.expected_ratio /ensure_up /=; do 3 crunch.
rewrite /np_average /= !invr1; do 3 crunch.
have -> : (1 + (1 + (1 + 0)) : R) = 3%:R by rewrite addr0 -[1]/(1%:R) -!natrD.
by rewrite (pnatr_eq0 R 3) /= divff // pnatr_eq0.
Qed.

Definition xr0 : seq (R * R) := [:: (-4%:R, 0); (-4%:R, 0)].
Lemma ex_solved (sens : seq nat) : all (fun i => (i < 2)%N) sens -> sens <> [::] ->
  exists s, [/\ load_poisson_prob greseed (@gdraw R) (Ok pds) 7%:R (Some 5%:Z) 0%N = (7%N, Ok (pds, s)),
    n_sensors s = Ok 2%N /\ s_sens s = Some psens & exists P P1,
    solved s sens xr0 P P1 [:: -1; -2%:R] (Fin 1) (fun i => ([:: -4%:R; 0], [:: 1; 1])) (fun i => ([:: -4%:R; 0], [:: 2%:R; 2%:R]))].
Proof.
move=> ha h0.
have [s [el [en es _] _ h]] := @C131_problem R (tab R) id pones psvd nat greseed (@gdraw R) (@size_gdraw R) pds 7%:R (Some 5%:Z) 0%N 5%N 3 2 2 _ _ _ _ _ sens pds_data erefl ha.
exists s; split=> //.
set A := nd2 _ _ in h.
have dA : dim A 1 = size sens by [].
have [||P [eP [rX sX] [eD eW] sY rY]] := h h0 _ 2%N erefl.
- by rewrite dA /nd_wf /= size_cat size_cat /= size_nseq /prodn /= muln1 addn0 mul2n addnn.
- by rewrite dA.
have [f1 f2 f3 f4 f5] := fresh eP.
have d2 : dim (ddom P) 1 = 2%N by rewrite eD.
have [P1 [em er ew ee ed]] := estimateE f1 f2 f3 f4 sX d2 eW.
exists P, P1, (nseq 3 (Fin 1)), (nseq 3 (Fin 1)), (tones R), (tones R).
split=> //; first by rewrite eD.
  by rewrite em rX.
split=> //; first by rewrite ew /xvbop /= mulr1.
by case=> [|[|]].
Qed.

(** The state loaded, the same for every order. *)
Definition ps : st R := if (load_poisson_prob greseed (@gdraw R) (Ok pds) 7%:R (Some 5%:Z) 0%N).2 is Ok x then x.2 else ST None None None None None None None None None None.
Lemma ex_all : exists P P1 : seq nat -> dprob R (tab R),
  [/\ load_poisson_prob greseed (@gdraw R) (Ok pds) 7%:R (Some 5%:Z) 0%N = (7%N, Ok (pds, ps)),
      n_sensors ps = Ok 2%N /\ s_sens ps = Some psens & forall sens, all (fun i => (i < 2)%N) sens -> sens <> [::] ->
    solved ps sens xr0 (P sens) (P1 sens) [:: -1; -2%:R] (Fin 1) (fun i => ([:: -4%:R; 0], [:: 1; 1]))
      (fun i => ([:: -4%:R; 0], [:: 2%:R; 2%:R]))].
Proof.
have [s0 [el0 [en0 es0] _]] := @ex_solved [:: 0%N] isT (fun e => ltac:(discriminate e)).
have eps : ps = s0 by rewrite /ps el0.
pose P sens := if mud_problem ps "pca" None None 2 None None (Some (MInts (map Posz sens))) is Ok P then P
  else DP (arr0 R) (arr0 R) (arr0 R) false [::] None None None None None None None None.
exists P, (fun sens => (estimate (P sens)).1); rewrite eps; split=> // sens ha h0.
have [s [el _ [P' [P1' hs]]]] := ex_solved ha h0.
have es : s0 = s by move: el; rewrite el0 => -[].
have [r [w [d0 [k [eP _ [_ em] _ _]]]]] := hs.
by rewrite /P eps es eP em.
Qed.

Lemma ex_sorted h : sensor_order hsample "sorted" ps h = (h, Ok [:: 1; 0]%N).
Proof.
have [_ [_ [_ [en es] _]]] := ex_all; rewrite /sensor_order en es /= /lexsort /=.
have -> : sort (lex_le psens) [:: 0; 1]%N = if lex_le psens 0 1 then [:: 0; 1]%N else [:: 1; 0]%N.
  by rewrite /sort /=; case: ifP.
by rewrite /lex_le /= (lt_gtF ltr01) oner_eq0.
Qed.

(** C131: the trials with one and with both sensors, from left to right. *)
Example C131_met : exists Q : int -> dprob R (tab R),
  run_trials (Ok pds) [:: Posz 1; Posz 2] "sorted" (-4%:R, 0) (-4%:R, 0) (Some (-3%:R, 1, 2%:R)) None 7%:R (Some 5%:Z)
    (Some "out"%string) true 0%N 9%N =
  ((7%N, 5%N),
   ([:: PFig [:: [:: DensityCurve "in" [:: -4%:R; 0] [:: 1; 1]; DensityCurve "up" [:: -4%:R; 0] [:: 2%:R; 2%:R];
                     VLine "mud" (-1); VLine "true" (-3%:R); TextN 1 (-3%:R) 1; TextRatio (Fin 1) (-3%:R) 2%:R];
                 [:: DensityCurve "in" [:: -4%:R; 0] [:: 1; 1]; DensityCurve "up" [:: -4%:R; 0] [:: 2%:R; 2%:R];
                     VLine "mud" (-2%:R); VLine "true" (-1)]] (Some "out/solution_n1"%string) true;
        PFig [:: [:: DensityCurve "in" [:: -4%:R; 0] [:: 1; 1]; DensityCurve "up" [:: -4%:R; 0] [:: 2%:R; 2%:R];
                     VLine "mud" (-1); VLine "true" (-3%:R); TextN 2 (-3%:R) 1; TextRatio (Fin 1) (-3%:R) 2%:R];
                 [:: DensityCurve "in" [:: -4%:R; 0] [:: 1; 1]; DensityCurve "up" [:: -4%:R; 0] [:: 2%:R; 2%:R];
                     VLine "mud" (-2%:R); VLine "true" (-1)]] (Some "out/solution_n2"%string) true],
    Ok (ps, [:: Q 1; Q 2]))).
Proof.
have [P [P1 [el [en es] hs]]] := ex_all.
have [|Q [-> _]] := @C131_run R (tab R) unit unit (@tpdf R) tt tt (@tunif R) (tones R) (@tkde R) (@tkde_pdf R) id pones psvd
  nat greseed (@gdraw R) nat hseed hsample pcurve pclosest (Ok pds) [:: Posz 1; Posz 2] "sorted" (-4%:R, 0) (-4%:R, 0)
  (Some (-3%:R, 1, 2%:R)) None 7%:R (Some 5%:Z) (Some "out"%string) true 0%N 9%N 7%N pds ps 5%N [:: 1; 0]%N
  (fun N => P (sensors_of [:: 1; 0]%N N)) (fun N => P1 (sensors_of [:: 1; 0]%N N)) (fun _ => [:: -1; -2%:R]) (fun _ => Fin 1)
  (fun _ _ => ([:: -4%:R; 0], [:: 1; 1])) (fun _ _ => ([:: -4%:R; 0], [:: 2%:R; 2%:R])) el (ex_sorted _).
- by move=> N; rewrite !inE => /orP [] /eqP ->; apply: hs.
by exists Q.
Qed.
(** The trial without sensors raises, after the first figure has been saved. *)
Example C131_stops_met :
  (run_trials (Ok pds) [:: Posz 1; Posz 0; Posz 2] "sorted" (-4%:R, 0) (-4%:R, 0) None None 7%:R (Some 5%:Z)
    (Some "out"%string) true 0%N 9%N).2.2 = Err ValueError /\
  size (run_trials (Ok pds) [:: Posz 1; Posz 0; Posz 2] "sorted" (-4%:R, 0) (-4%:R, 0) None None 7%:R (Some 5%:Z)
    (Some "out"%string) true 0%N 9%N).2.1 = 1%N.
Proof.
have [P [P1 [el [en es] hs]]] := ex_all.
have [s [el' _ h _]] := @C131_problem R (tab R) id pones psvd nat greseed (@gdraw R) (@size_gdraw R) pds 7%:R (Some 5%:Z) 0%N 5%N 3 2 2 _ _ _ _ _ [::] pds_data erefl isT.
have e : s = ps by move: el'; rewrite el => -[].
have := @C131_stops R (tab R) unit unit (@tpdf R) tt tt (@tunif R) (tones R) (@tkde R) (@tkde_pdf R) id pones psvd
  nat greseed (@gdraw R) nat hseed hsample pcurve pclosest (Ok pds) [:: Posz 1] 0 [:: Posz 2] "sorted" (-4%:R, 0) (-4%:R, 0)
  None None 7%:R (Some 5%:Z) (Some "out"%string) true 0%N 9%N 7%N pds ps 5%N [:: 1; 0]%N ValueError
  (fun N => P (sensors_of [:: 1; 0]%N N)) (fun N => P1 (sensors_of [:: 1; 0]%N N)) (fun _ => [:: -1; -2%:R]) (fun _ => Fin 1)
  (fun _ _ => ([:: -4%:R; 0], [:: 1; 1])) (fun _ _ => ([:: -4%:R; 0], [:: 2%:R; 2%:R])) el (ex_sorted _).
move=> ->; [by [] | by move=> N; rewrite !inE => /eqP ->; apply: hs | by rewrite -e; apply: h].
Qed.

(** C132: everything drawn, with the groups of the first and of the second sensor, and no save_path. *)
Definition gmarks : seq (int * int) := [:: (Posz 0, Posz 1); (Posz 1, Posz 2)].
Lemma ex_axes (l : seq nat) : size l = 2%N -> forall u, head [::] (response_axes pclosest u psens plam 2 l gmarks default_markers default_colors) =
     [:: Art (TriContour u.1.1 u.1.2 u.2); Art (Colorbar R);
         Group "red" "*" [:: ent psens (nth 0%N l 0) 0] [:: ent psens (nth 0%N l 0) 1];
         Group "white" "+" [:: ent psens (nth 0%N l 1) 0] [:: ent psens (nth 0%N l 1) 1]].
Proof. by case: l => [|a [|b [|]]] // _ u; rewrite /response_axes; cbn [head]. Qed.
Lemma ex_sol (order : string) h l h1 : sensor_order hsample order ps h = (h1, Ok l) -> perm_eq l (iota 0 2) ->
  forall plot_fig, exists figs P', run_sol (Ok pds) 7%:R (Some 5%:Z) plot_fig None true order gmarks default_markers default_colors
    (pp0 R) (pp0 R) 0%N h = ((7%N, h1), (figs, Ok (ps, P'))) /\
  size figs = ((wanted "response" plot_fig) + (wanted "qoi" plot_fig) + (wanted "densities" plot_fig).*2)%N /\
  (wanted "response" plot_fig -> forall f0, exists rest, head [::] (pf_axes (head f0 figs)) =
     [:: Art (TriContour [:: 0; 1; 0] [:: 0; 0; 1] [:: 1; 2%:R; 3%:R]); Art (Colorbar R);
         Group "red" "*" [:: ent psens (nth 0%N l 0) 0] [:: ent psens (nth 0%N l 0) 1];
         Group "white" "+" [:: ent psens (nth 0%N l 1) 0] [:: ent psens (nth 0%N l 1) 1]] ++ rest).
Proof.
move=> eo pl plot_fig.
have al : all (fun i => (i < 2)%N) l by rewrite (perm_all _ pl).
have sl : size l = 2%N by rewrite (perm_size pl).
have l0 : l <> [::] by move=> e; rewrite e in sl.
have [s [el [en es elam'] _ h']] := @C131_problem R (tab R) id pones psvd nat greseed (@gdraw R) (@size_gdraw R) pds 7%:R (Some 5%:Z) 0%N 5%N 3 2 2 _ _ _ _ _ l pds_data erefl al.
have eps : s = ps by rewrite /ps el.
rewrite eps in el es elam' h'.
set A := nd2 _ _ in h'; have dA : dim A 1 = 2%N by rewrite /A /dim /= sl.
have [||P [eP [rX sX] [eD eW] sY rY]] := h' l0 _ 2%N erefl.
- by rewrite dA.
- by rewrite dA sl.
have [f1 f2 f3 f4 f5] := fresh eP.
have d2 : dim (ddom P) 1 = 2%N by rewrite eD.
have [P1 [em er ew ee ed]] := estimateE f1 f2 f3 f4 sX d2 eW.
pose cv (hgt : R) i := let xr := stretched (nth 0 [:: 5%:R / 100%:R; 105%:R / 1000%:R] i) (ddom P) in
  ([:: (nth (0, 0) xr i).1; (nth (0, 0) xr i).2], [:: hgt; hgt]).
have elam : s_lam ps = Some plam /\ nd_wf plam /\ Nd.shape plam = [:: 3; 2]%N by split; last by split.
have gd : all (fun i => (i < 2)%N) l by [].
have h1' : nd_wf (ddom P) by rewrite eD.
have h2' : Nd.shape (ddom P) = [:: 2; 2]%N by rewrite eD.
have h3' : forall i, (i < 2)%N -> ptri (ncol (dX P) 0) (ncol (dX P) 1) (ncol (dy P) i) = Ok tt.
  by case=> [|[|//]] _; rewrite /ptri /ncol !size_map !size_rows /dim sX sY.
have h4' : size (nth [::] (rows (dX P)) 0) = 2%N by rewrite rX.
have h5' : xvbop (@xmul R) (nseq 3 (Fin 1)) (d_w P1) = Ok (nseq 3 (Fin 1)) by rewrite ew /xvbop /= mulr1.
have h6' : forall i, (i < 2)%N -> let xr := stretched (nth 0 [:: 5%:R / 100%:R; 105%:R / 1000%:R] i) (ddom P) in
     pcurve "pdf" (tones R) xr i = Ok (cv 1 i) /\ pcurve "kde" (tones R) xr i = Ok (cv 2%:R i) by [].
have h7' : s_sens ps = Some psens /\ nd_wf psens /\ Nd.shape psens = [:: 2; 2]%N /\ all (fun i => (i < 2)%N) l by [].
have h8' : pfield pds = Ok ([:: 0; 1; 0], [:: 0; 0; 1], [:: 1; 2%:R; 3%:R]) by [].
have [P' [e _ _ _]] := @C132_run R (tab R) unit unit (@tpdf R) tt tt (@tunif R) (tones R) (@tkde R) (@tkde_pdf R) id pones psvd
  nat greseed (@gdraw R) nat hsample pcurve ptri pclosest pfield (Ok pds) 7%:R (Some 5%:Z) plot_fig None true order gmarks
  default_markers default_colors 0%N h 7%N pds ps h1 l ([:: 0; 1; 0], [:: 0; 0; 1], [:: 1; 2%:R; 3%:R]) psens plam 2 3 P P1 (nth [::] (rows (dX P)) 0)
  (nseq 3 (Fin 1)) (nseq 3 (Fin 1)) (tones R) (tones R) (cv 1) (cv 2%:R) el eo h7' elam isT isT h8' erefl eP h1' h2' sX sY h3' em h4' ed er h5'
  erefl h6'.
have hax := ex_axes sl ([:: 0; 1; 0], [:: 0; 0; 1], [:: 1; 2%:R; 3%:R]).
move: e hax; set ax := response_axes _ _ _ _ _ _ _ _ _; set ax2 := [:: qoi_axes _ _ _; _]; clearbody ax ax2.
set d1 := [:: density_axes _ _ _]; set d2' := [:: density_axes _ _ _]; clearbody d1 d2' => e hax.
eexists; exists P'; split; first exact: e.
split; first by case: (wanted "response" _); case: (wanted "qoi" _); case: (wanted "densities" _).
by move=> -> f0; exists [::]; rewrite cats0 -hax.
Qed.

Lemma one (T : Type) (G : seq T) : size G = 1%N -> exists f, G = [:: f].
Proof. by case: G => [|f []] // _; exists f. Qed.
(** C132: with the seed given, the first state of Python's generator makes the first sensor red, the second
    state the second sensor: the figures are not determined by the seed. *)
Theorem C132_random_refuted : exists h h' f f' P P',
  run_sol (Ok pds) 7%:R (Some 5%:Z) [:: "response"]%string None true "random" gmarks default_markers default_colors
    (pp0 R) (pp0 R) 0%N h = ((7%N, h.+1), ([:: f], Ok (ps, P))) /\
  run_sol (Ok pds) 7%:R (Some 5%:Z) [:: "response"]%string None true "random" gmarks default_markers default_colors
    (pp0 R) (pp0 R) 0%N h' = ((7%N, h'.+1), ([:: f'], Ok (ps, P'))) /\ f <> f'.
Proof.
have [_ [_ [_ [en _] _]]] := ex_all.
have [|//|F [P [e1 [s1 h1]]]] := @ex_sol "random" 0%N [:: 0; 1]%N 1%N _ _ [:: "response"]%string; first by rewrite /sensor_order en.
have [|//|F' [P' [e2 [s2 h2]]]] := @ex_sol "random" 1%N [:: 1; 0]%N 2%N _ _ [:: "response"]%string; first by rewrite /sensor_order en.
have [f ef] := @one _ F s1; have [f' ef'] := @one _ F' s2; subst F F'.
exists 0%N, 1%N, f, f', P, P'; split; [exact: e1 | split; [exact: e2|]] => e.
have [r1] := h1 isT f; have [r2] := h2 isT f'; rewrite e => -> []; rewrite /ent /= => h; have := oner_neq0 R; by rewrite h eqxx.
Qed.
End PoisExExamples.
