(** Property C131, continued: the whole run, the order of the sensors, the problems built. *)
Set Warnings "-notation-overridden,-ambiguous-paths".
From Coq Require Import String ZArith DecimalString DecimalZ DecimalPos.
From mathcomp Require Import all_ssreflect all_algebra.
From mathcomp Require Import zify.
From mathcomp.algebra_tactics Require Import ring.
From Verif Require Import Py Nd Xnum XnumProofs UtilModel DensityModel NdProofs DensityProps3 UtilModel2 UtilProps
  StModel StProps StProps2 StProps3 StProps4 StProps5 DrawModel PoisModel StExModel StExProps PoisExModel PoisExProps.
Set Implicit Arguments. Unset Strict Implicit. Unset Printing Implicit Defensive.
Import Order.Theory GRing.Theory Num.Theory.
Local Open Scope ring_scope.

(** Different numbers are written differently. *)
Lemma z_of_inj : injective z_of.
Proof.
have h (m n : nat) : Z.of_nat m = Z.of_nat n -> m = n by exact: Nat2Z.inj.
case=> m [] n; rewrite /z_of => e; try by exfalso; move: e; clear; lia.
  by rewrite (h _ _ e).
by have := h _ _ (Z.opp_inj _ _ e) => -[->].
Qed.
Lemma str_int_inj : injective str_int.
Proof.
move=> M N; rewrite /str_int => e; apply: z_of_inj.
have nn z : Z.to_int z <> Decimal.Pos Decimal.Nil /\ Z.to_int z <> Decimal.Neg Decimal.Nil.
  by split; case: z => [|p|p] //= [h]; apply: (DecimalPos.Unsigned.to_uint_nonnil p).
have [a1 a2] := nn (z_of M); have [b1 b2] := nn (z_of N).
rewrite -[z_of M]DecimalZ.of_to -[z_of N]DecimalZ.of_to; congr Z.of_int.
by have := congr1 NilZero.int_of_string e; rewrite (NilZero.isi _ a1 a2) (NilZero.isi _ b1 b2) => -[].
Qed.

Section PoisExProps2.
Variable R : rcfType.
Notation xnum := (xnum R).
Notation nd := (nd R).
Variables (D KW BW : Type) (pdf : D -> KW -> nd -> res (pdfval xnum)) (nokw : KW) (nobw : BW)
  (uniform : seq R -> seq R -> D) (norm01 : D) (kde : nd -> BW -> seq xnum -> res D)
  (kde_pdf : D -> nd -> res (seq xnum)) (trunc : R -> R).
Variables (pca_components : nd -> int -> res nd) (svd_v : nd -> res nd).
Variables (G : Type) (reseed : int -> res G) (randn : nat -> G -> seq R * G).
Variables (H : Type) (pyseed : int -> H) (pysample : nat -> H -> seq nat * H).
Variable curve : string -> D -> seq (R * R) -> int -> res (seq R * seq R).
Variable closest : R * R.
Notation dprob := (dprob R D).
Notation mark := (mark R).
Notation pfig := (pfig R).
Notation estimate := (estimate pdf nokw nobw uniform norm01 kde kde_pdf).
Notation expected_ratio := (expected_ratio pdf nokw nobw uniform norm01 kde kde_pdf).
Notation mud_problem := (st_mud_problem D trunc pca_components svd_v).
Notation trial := (trial pdf nokw nobw uniform norm01 kde kde_pdf trunc pca_components svd_v curve closest).
Notation trials := (trials pdf nokw nobw uniform norm01 kde kde_pdf trunc pca_components svd_v curve closest).
Notation run_trials := (run_2d_poisson_trials pdf nokw nobw uniform norm01 kde kde_pdf trunc pca_components svd_v
  reseed randn pyseed pysample curve closest).
Notation poisson := (load_poisson_prob reseed randn).
Notation order_of := (sensor_order pysample).

(** ** The whole run *)
(** Where the figure of a trial is saved. *)
Definition trial_file (sp : option string) (N : int) : option string :=
  if sp is Some d then Some (if ((d =? "") || (d =? "."))%string then ("solution_n" ++ str_int N)%string
                             else (d ++ "/solution_n" ++ str_int N)%string) else None.
Definition trial_fig (sp : option string) (cl : bool) (N : int) (axes : seq (seq mark)) : pfig :=
  PFig axes (trial_file sp N) (if sp is Some _ then cl else false).
Lemma savedE sp cl N axes : saved ("solution_n" ++ str_int N) sp cl axes = trial_fig sp cl N axes.
Proof. by rewrite /saved /trial_fig /trial_file /path_join; case: sp => [d|] //; case: ifP. Qed.

Lemma trials_ok s idx_o xr loc1 loc2 sp cl Ns (Q : int -> dprob) (A : int -> seq (seq mark)) :
  (forall N, N \in Ns -> trial s idx_o xr loc1 loc2 N = Ok (Q N, A N)) ->
  trials s idx_o xr loc1 loc2 sp cl Ns = ([seq trial_fig sp cl N (A N) | N <- Ns], Ok [seq Q N | N <- Ns]).
Proof.
elim: Ns => [//|N Ns ih] h; cbn [PoisExModel.trials]; rewrite h ?inE ?eqxx // ih ?savedE //.
by move=> M hM; apply: h; rewrite inE hM orbT.
Qed.
Lemma trials_err s idx_o xr loc1 loc2 sp cl Ns N Ns' e (Q : int -> dprob) (A : int -> seq (seq mark)) :
  (forall N, N \in Ns -> trial s idx_o xr loc1 loc2 N = Ok (Q N, A N)) -> trial s idx_o xr loc1 loc2 N = Err e ->
  trials s idx_o xr loc1 loc2 sp cl (Ns ++ N :: Ns') = ([seq trial_fig sp cl N (A N) | N <- Ns], Err e).
Proof.
move=> h he; elim: Ns h => [|M Ns ih] h /=; first by rewrite he.
rewrite h ?inE ?eqxx // ih ?savedE //.
by move=> M' hM; apply: h; rewrite inE hM orbT.
Qed.

(** A trial that comes to an end: the problem [P1] after estimate, the MUD point [m], the expected
    ratio [e], and the curves of the initial and updated density for the two parameters. *)
Definition solved (s : st R) (sens : seq nat) (xr : seq (R * R)) (P P1 : dprob) (m : seq R) (e : xnum)
    (cin cup : nat -> seq R * seq R) : Prop :=
  exists r w d0 k,
  [/\ mud_problem s "pca" None None 2 None None (Some (MInts (map Posz sens))) = Ok P,
      nd_wf (ddom P) /\ Nd.shape (ddom P) = [:: 2%N; 2%N], size m = 2%N /\ estimate P = (P1, Ok m),
      (expected_ratio P1).2 = Ok e &
      [/\ default_initial uniform P = Ok d0, d_r P1 = Some r, xvbop (@xmul R) r (d_w P1) = Ok w,
          kde (dX P) nobw w = Ok k &
          forall i, (i < 2)%N -> curve "pdf" d0 xr i = Ok (cin i) /\ curve "kde" k xr i = Ok (cup i)]].

(** C131: if every trial comes to an end, the run returns the problem loaded and one problem for
    each N, depending only on N (whatever the other trials are), with its figure, in order. *)
Theorem C131_run file Ns order xl1 xl2 loc1 loc2 sigma seed sp cl g h g1 ds s h1 idx_o
    (P P1 : int -> dprob) (m : int -> seq R) (e : int -> xnum) (cin cup : int -> nat -> seq R * seq R) :
  poisson file sigma seed g = (g1, Ok (ds, s)) ->
  order_of order s (if seed is Some q then pyseed q else h) = (h1, Ok idx_o) ->
  (forall N, N \in Ns -> solved s (sensors_of idx_o N) [:: xl1; xl2] (P N) (P1 N) (m N) (e N) (cin N) (cup N)) ->
  exists Q : int -> dprob,
    run_trials file Ns order xl1 xl2 loc1 loc2 sigma seed sp cl g h =
    ((g1, h1), ([seq trial_fig sp cl N [:: trial_marks closest 0 N (cin N 0%N) (cup N 0%N) (m N) loc1 (e N);
                                          trial_marks closest 1 N (cin N 1%N) (cup N 1%N) (m N) loc2 (e N)] | N <- Ns],
                Ok (s, [seq Q N | N <- Ns]))) /\
    forall N, N \in Ns -> [/\ same_but_domain (P1 N) (Q N), widened (105%:R / 1000%:R) (ddom (P N)) (ddom (Q N)),
      estimate (Q N) = (Q N, Ok (m N)) & expected_ratio (Q N) = (Q N, Ok (e N))].
Proof.
move=> el eo hs.
pose Q N := if trial s idx_o [:: xl1; xl2] loc1 loc2 N is Ok x then x.1 else P1 N.
have hQ N : N \in Ns -> [/\ trial s idx_o [:: xl1; xl2] loc1 loc2 N = Ok (Q N,
     [:: trial_marks closest 0 N (cin N 0%N) (cup N 0%N) (m N) loc1 (e N);
         trial_marks closest 1 N (cin N 1%N) (cup N 1%N) (m N) loc2 (e N)]),
   same_but_domain (P1 N) (Q N), widened (105%:R / 1000%:R) (ddom (P N)) (ddom (Q N)),
      estimate (Q N) = (Q N, Ok (m N)) & expected_ratio (Q N) = (Q N, Ok (e N))].
  move=> /hs [r [w [d0 [k [h1' [h2 h3] [h4 h5] h6 [h7 h8 h9 h10 h11]]]]]].
  have [P' [et a1 a2 a3 a4]] := C131_trial closest loc1 loc2 h1' h2 h3 h4 h5 h6 h7 h8 h9 h10 h11.
  by rewrite /Q et.
exists Q; split; last by move=> N /hQ [].
rewrite /run_2d_poisson_trials el eo (@trials_ok _ _ _ _ _ _ _ _ Q (fun N => [:: trial_marks closest 0 N (cin N 0%N) (cup N 0%N) (m N) loc1 (e N);
         trial_marks closest 1 N (cin N 1%N) (cup N 1%N) (m N) loc2 (e N)])) //.
by move=> N /hQ [].
Qed.

(** C131: a trial that raises ends the run; the figures of the trials before it have been
    finished (and saved). *)
Theorem C131_stops file Ns N Ns' order xl1 xl2 loc1 loc2 sigma seed sp cl g h g1 ds s h1 idx_o x
    (P P1 : int -> dprob) (m : int -> seq R) (e : int -> xnum) (cin cup : int -> nat -> seq R * seq R) :
  poisson file sigma seed g = (g1, Ok (ds, s)) ->
  order_of order s (if seed is Some q then pyseed q else h) = (h1, Ok idx_o) ->
  (forall N, N \in Ns -> solved s (sensors_of idx_o N) [:: xl1; xl2] (P N) (P1 N) (m N) (e N) (cin N) (cup N)) ->
  mud_problem s "pca" None None 2 None None (Some (MInts (map Posz (sensors_of idx_o N)))) = Err x ->
  run_trials file (Ns ++ N :: Ns') order xl1 xl2 loc1 loc2 sigma seed sp cl g h =
    ((g1, h1), ([seq trial_fig sp cl N [:: trial_marks closest 0 N (cin N 0%N) (cup N 0%N) (m N) loc1 (e N);
                                          trial_marks closest 1 N (cin N 1%N) (cup N 1%N) (m N) loc2 (e N)] | N <- Ns], Err x)).
Proof.
move=> el eo hs hx; pose A N := [:: trial_marks closest 0 N (cin N 0%N) (cup N 0%N) (m N) loc1 (e N);
         trial_marks closest 1 N (cin N 1%N) (cup N 1%N) (m N) loc2 (e N)].
pose Q N := if trial s idx_o [:: xl1; xl2] loc1 loc2 N is Ok x then x.1 else P1 N.
rewrite /run_2d_poisson_trials el eo (@trials_err _ _ _ _ _ _ _ _ _ _ x Q A) //.
  move=> M /hs [r [w [d0 [k [h1' [h2 h3] [h4 h5] h6 [h7 h8 h9 h10 h11]]]]]].
  have [P' [et _ _ _ _]] := C131_trial closest loc1 loc2 h1' h2 h3 h4 h5 h6 h7 h8 h9 h10 h11.
  by rewrite /Q et.
by rewrite /PoisExModel.trial sensors_ofE /positions hx.
Qed.

(** With a seed, everything returned and drawn is the same whatever the generators have done before. *)
Theorem C131_reproducible file Ns order xl1 xl2 loc1 loc2 sigma sigma' q sp cl g h g' h' :
  (run_trials file Ns order xl1 xl2 loc1 loc2 sigma (Some q) sp cl g h).2 =
  (run_trials file Ns order xl1 xl2 loc1 loc2 sigma' (Some q) sp cl g' h').2.
Proof.
have ep : (poisson file sigma (Some q) g).2 = (poisson file sigma' (Some q) g').2.
  rewrite /load_poisson_prob /load_with; case: file => [ds|//]; case: (load _ _ _) => s0 [u|//].
  rewrite /measurements_from_reference; case: (s_tv _) => [[tv|]|//]; case: (s_sd _) => [x|//]; rewrite /add_noise.
    case: (reseed q) => [g1|//]; case: (randn _ _) => z g2; case: (add_last _ _) => [y|//].
    by case: (set_meas _ _) => s1 [].
  by case: (reseed q) => [g1|//]; case: (randn _ _) => z g2; case: (add_last _ _) => [y|//].
rewrite /run_2d_poisson_trials; case: (poisson file sigma _ g) ep => ga ra; case: (poisson file sigma' _ g') => gb rb /= <-.
case: ra => [[ds s]|//]; case: (order_of _ _ _) => h1 [idx|//]; by case: (trials _ _ _ _ _ _ _ _).
Qed.

(** ** The order of the sensors *)
(** Sensor [i] comes before [j]: further left, or exactly above each other and lower, or at the
    same place with a smaller number. *)
Definition precedes (se : nd) (i j : nat) : Prop :=
  let x i := ent se i 0 in let y i := ent se i 1 in
  x i < x j \/ (x i = x j /\ (y i < y j \/ (y i = y j /\ (i < j)%N))).

Lemma lex_leE (se : nd) i j : lex_le se i j = (nth 0 (nth [::] (rows se) i) 0 < nth 0 (nth [::] (rows se) j) 0)
  || ((nth 0 (nth [::] (rows se) i) 0 == nth 0 (nth [::] (rows se) j) 0) && (nth 0 (nth [::] (rows se) i) 1 <= nth 0 (nth [::] (rows se) j) 1)).
Proof. by []. Qed.
Lemma lex_total (se : nd) : total (lex_le se).
Proof.
move=> i j; rewrite !lex_leE [X in _ || (_ || (X && _))]eq_sym.
by case: ltgtP => //= _; exact: le_total.
Qed.
Lemma lex_trans (se : nd) : transitive (lex_le se).
Proof.
move=> j i k; rewrite !lex_leE => /orP [h1|/andP [/eqP -> h1]] /orP [h2|/andP [/eqP e h2]].
- by rewrite (lt_trans h1 h2).
- by rewrite -e h1.
- by rewrite h2.
- by rewrite e eqxx (le_trans h1 h2) orbT.
Qed.

(** C131: the three orders; [random.sample] gives a permutation. *)
Theorem C131_order order s h n se : n_sensors s = Ok n -> s_sens s = Some se -> nd_wf se -> Nd.shape se = [:: n; 2%N] ->
  (order = "random"%string -> order_of order s h = ((pysample n h).2, Ok (pysample n h).1)) /\
  (order = "sorted"%string -> exists l, [/\ order_of order s h = (h, Ok l), perm_eq l (iota 0 n) &
     forall a b, (a < b)%N -> (b < n)%N -> precedes se (nth 0%N l a) (nth 0%N l b)]) /\
  (order <> "random"%string -> order <> "sorted"%string -> order_of order s h = (h, Ok (iota 0 n))).
Proof.
move=> en es wf sh; rewrite /sensor_order en.
split; first by move=> ->; case: (pysample n h).
split; last by move=> /String.eqb_neq -> /String.eqb_neq ->.
move=> ->; rewrite es; cbn [String.eqb Ascii.eqb Bool.eqb of_opt rbind].
have d0 : dim se 0 = n by rewrite /dim sh.
rewrite /lexsort /ndim sh /= {1}/dim sh d0 /=; exists (sort (lex_le se) (iota 0 n)); split=> //.
  by rewrite perm_sort.
move=> a b ab bn.
have st := sort_stable (@lex_total se) ltn_trans (iota_ltn_sorted 0 n).
set leT := (fun x y => _) in st.
have tr : transitive leT.
  move=> j i k; rewrite /leT => /andP [h1 /implyP h2] /andP [h3 /implyP h4].
  rewrite (lex_trans h1 h3) /=; apply/implyP => h5.
  have h6 := lex_trans h3 h5; have h7 := lex_trans h5 h1; exact: ltn_trans (h2 h6) (h4 h7).
have sz : size (sort (lex_le se) (iota 0 n)) = n by rewrite size_sort size_iota.
have := sorted_ltn_nth tr 0%N st; move/(_ a b); rewrite !inE sz bn (ltn_trans ab bn) => /(_ isT isT ab).
have inn c : (c < n)%N -> (nth 0%N (sort (lex_le se) (iota 0 n)) c < n)%N.
  move=> hc; have : nth 0%N (sort (lex_le se) (iota 0 n)) c \in sort (lex_le se) (iota 0 n) by rewrite mem_nth // sz.
  by rewrite mem_sort mem_iota add0n.
have [ha hb] : (nth 0%N (sort (lex_le se) (iota 0 n)) a < n)%N /\ (nth 0%N (sort (lex_le se) (iota 0 n)) b < n)%N.
  by split; apply: inn => //; exact: ltn_trans bn.
move: (nth 0%N _ a) (nth 0%N _ b) ha hb => i j hi hj; rewrite /leT !lex_leE.
have rE c : (c < n)%N -> nth [::] (rows se) c = row_of se 2 c.
  by move=> hc; rewrite (rows_of wf sh) (nth_map 0%N) ?size_iota // nth_iota.
rewrite !rE // /precedes /=.
case: ltgtP => //= [lt _|e /andP []]; first by left.
rewrite e => h1 /implyP h2; right; split=> //.
case: (ltgtP (ent se i 1) (ent se j 1)) h1 h2 => // [lt _ _|-> _ h2]; first by left.
by right; split=> //; apply: h2.
Qed.

(** ** The problems *)
(** The sensors of a smaller trial are the first ones of a larger trial; from the number of
    sensors on, all trials use all sensors; none is left for N = 0 or N at most minus their number. *)
Theorem C131_nested (idx_o : seq nat) (N M : nat) :
  [/\ (N <= M)%N -> sensors_of idx_o N = take N (sensors_of idx_o M),
      (size idx_o <= N)%N -> sensors_of idx_o N = idx_o,
      size (sensors_of idx_o N) = minn N (size idx_o) &
      sensors_of idx_o 0 = [::] /\ ((size idx_o <= M)%N -> sensors_of idx_o (- M%:Z) = [::])].
Proof.
split; rewrite /sensors_of.
- by move=> h; rewrite take_take.
- by move=> h; rewrite take_oversize.
- by rewrite size_take_min.
- split; first exact: seq.take0; case: M => [|M] h; first by rewrite oppr0; exact: seq.take0.
  by rewrite -NegzE; have -> : (size idx_o - M.+1 = 0)%N by [apply/eqP; rewrite subn_eq0]; exact: seq.take0.
Qed.

(** A data set of n samples of p parameters, observed by k sensors in the plane. *)
Definition poisson_data (ds : dset R) (n p k : nat) (d se tv lam dat : nd) : Prop :=
  [/\ [/\ ~~ has_key ds "std_dev", ~~ has_key ds "measurements", ~~ has_key ds "lam_ref", ~~ has_key ds "times" &
          ~~ has_key ds "sample_dist"],
      [/\ lookup ds "domain" = Some (VArr d), lookup ds "sensors" = Some (VArr se),
          lookup ds "true_vals" = Some (VArr tv), lookup ds "lam" = Some (VArr lam) & lookup ds "data" = Some (VArr dat)],
      [/\ nd_wf d, Nd.shape d = [:: p; 2%N], nd_wf se, Nd.shape se = [:: k; 2%N] & (0 < k)%N] &
      [/\ size (data tv) = k, nd_wf lam, Nd.shape lam = [:: n; p], nd_wf dat & Nd.shape dat = [:: n; k]]].
(** The residual of sample [i] at sensor [x] with the noise [z]. *)
Definition noisy_resid (tv : nd) (z : seq R) (dat : nd) (i x : nat) : R :=
  (nth 0 (data tv) x + nth 0 z x * (5%:R / 100%:R) - ent dat i x) / (5%:R / 100%:R).

Hypothesis size_randn : forall n g, size (randn n g).1 = n.

Lemma picked_ints k (l : seq nat) : all (fun i => (i < k)%N) l -> picked k (Some (MInts (map Posz l))) = Ok l.
Proof. by rewrite /picked /resolve; elim: l => [//|i l ih] /= /andP [hi /ih ->]; rewrite hi. Qed.

Lemma mud_weights s me dw kc sm tm xm o P n p : sample_data s sm tm xm = Ok o -> Nd.shape (sd_lam o) = [:: n; p] ->
  mud_problem s me dw None kc sm tm xm = Ok P -> Nd.shape (dX P) = [:: n; p] /\ d_w P = nseq n (Fin 1).
Proof.
move=> eo sh; rewrite /st_mud_problem eo; cbn [rbind].
case: (residuals _ _) => [r|//]; cbn [rbind]; case: (apply_weights _ _ _) => [r'|//]; cbn [rbind].
case: (qoi_map _ _ _ _ _ _) => [q|//]; cbn [rbind]; rewrite /density_init.
have -> : set_shape [:: Some 1%N; None] (sd_lam o) = Ok (sd_lam o) by rewrite /set_shape /ndim sh.
cbn [rbind]; case: (set_shape _ q) => [y|//]; cbn [rbind].
case: (match s_dom s with Some _ => _ | None => _ end) => [x|//]; cbn [rbind set_weights put_weights] => -[<-].
by cbn [dX d_w]; rewrite /dim sh.
Qed.

(** C131: the problem of a trial with the sensors [sens] (which sensors_of picks): all samples
    with weight 1, the domain of the data set, and as QoI of a sample the inner products of its residuals at
    these sensors, in their order, with the components PCA finds.  Without sensors: ValueError. *)
Theorem C131_problem ds sigma seed g g1 n p k d se tv lam dat (sens : seq nat) :
  poisson_data ds n p k d se tv lam dat -> (if seed is Some q then reseed q else Ok g) = Ok g1 ->
  all (fun i => (i < k)%N) sens ->
  let z := (randn k g1).1 in let r := noisy_resid tv z dat in
  exists s, [/\ poisson (Ok ds) sigma seed g = ((randn k g1).2, Ok (ds, s)),
    [/\ n_sensors s = Ok k, s_sens s = Some se & s_lam s = Some lam],
    sens = [::] -> mud_problem s "pca" None None 2 None None (Some (MInts (map Posz sens))) = Err ValueError &
    sens <> [::] -> forall c q,
      pca_components (nd2 (size sens) [seq [seq r i x | x <- sens] | i <- iota 0 n]) 2 = Ok c ->
      nd_wf c -> Nd.shape c = [:: q; size sens] ->
      exists P, [/\ mud_problem s "pca" None None 2 None None (Some (MInts (map Posz sens))) = Ok P,
        rows (dX P) = [seq row_of lam p i | i <- iota 0 n] /\ Nd.shape (dX P) = [:: n; p],
        ddom P = d /\ d_w P = nseq n (Fin 1), Nd.shape (dy P) = [:: n; q] &
        rows (dy P) = [seq [seq \sum_(l < size sens) r i (nth 0%N sens l) * ent c b l | b <- iota 0 q] | i <- iota 0 n]]].
Proof.
move=> [[h1 h2 h3 h4 h5] [e1 e2 e3 e4 e5] [wd hd wse hse k0] [stv wl hl wa ha]] eg hs z r.
have ns : (0 < ndim se)%N by rewrite /ndim hse.
have dse : dim se 0 = k by rewrite /dim hse.
have := @C122_poisson_loads R G reseed randn size_randn ds sigma seed g g1 n p k d se tv lam dat h1 h2 h3 h4 h5 e1 e2 e3 e4 e5 wd hd ns dse k0 stv wl hl wa ha eg.
set s := ST _ _ _ _ _ _ _ _ _ _ => el; exists s.
have su : setup s n p k 1 dat lam se (arr0 R).
  by split=> //; [rewrite muln1 | split=> //; split=> //; left | rewrite /s /= stv size_map size_iota muln1].
have eI : picked n None = Ok (iota 0 n) by [].
have eT : picked 1 None = Ok (iota 0 1) by [].
have eX := picked_ints hs.
have sx : Some (MInts (map Posz sens)) <> None -> Nd.shape se = [:: k; 2%N] by [].
split=> //; first by split=> //; rewrite /n_sensors /s /= /shape0 /ndim hse /= dse.
  move=> e0; have := C59_sample_data None None su sx; rewrite eX e0 /= => es; by rewrite /st_mud_problem es.
move=> s0 c q; have w0 : (0 < size sens * size (iota 0 1))%N by rewrite muln1; case: (sens) s0.
have rE i x : (i < n)%N -> (x < k)%N -> resid s dat 1 i x 0 (5%:R / 100%:R) = r i x.
  move=> hi hx; rewrite /resid /meas_at /s /= muln1 addn0 /r /noisy_resid stv.
  by rewrite (nth_map 0%N) ?size_iota // nth_iota.
have -> : nd2 (size sens) [seq [seq r i x | x <- sens] | i <- iota 0 n] =
          resid_mx s dat 1 (iota 0 n) sens (iota 0 1) (5%:R / 100%:R).
  rewrite /resid_mx muln1; congr nd2; apply/eq_in_map => i; rewrite mem_iota add0n => hi.
  rewrite /= -[LHS]flatten_seq1 -map_comp; congr flatten; apply/eq_in_map => x hx /=.
  by rewrite rE // (allP hs).
move=> ec wc hc.
have hc' : Nd.shape c = [:: q; (size sens * size (iota 0 1))%N] by rewrite muln1.
have ms : s_meas s <> None by [].
have [P [eP eX' eD eS eR]] := @C92_pca_map R D trunc pca_components svd_v s n p k 1 dat lam se (arr0 R) None None _ _ _ _ (5%:R / 100%:R) d
   su sx eI eT eX w0 ms erefl erefl hd 2 c q ec wc hc'.
have [o [eo _ _ [_ sho] _]] := residualsE su sx eI eT eX w0 ms (erefl : s_sd s = Some (5%:R / 100%:R)).
rewrite size_iota in sho; have [shX wX] := mud_weights eo sho eP.
exists P; split=> //; first by rewrite eS size_iota.
rewrite eR /projections.
have [wr hr] := resid_wf s dat 1 (iota 0 n) sens (iota 0 1) (5%:R / 100%:R).
rewrite {1}/dim hr /= size_iota; apply/eq_in_map => i; rewrite mem_iota add0n => hi.
apply/eq_map => b; rewrite muln1; apply: eq_bigr => l _; congr (_ * _).
rewrite /resid_mx muln1; have -> : [seq flatten [seq [seq resid s dat 1 i x j (5%:R / 100%:R) | j <- iota 0 1] | x <- sens] | i <- iota 0 n]
  = [seq [seq r i x | x <- sens] | i <- iota 0 n].
  apply/eq_in_map => i'; rewrite mem_iota add0n => hi'; rewrite /= -[RHS]flatten_seq1 -map_comp; congr flatten.
  by apply/eq_in_map => x hx /=; rewrite rE // (allP hs).
rewrite /ent rows_nd2 ?all_map; last by apply/allP => i' _ /=; rewrite size_map.
by rewrite (nth_map 0%N) ?size_iota // nth_iota // (nth_map 0%N).
Qed.

(** Different trials are saved to different files, and the name only depends on N. *)
Theorem C131_files (sp : option string) N M : trial_file sp N = trial_file sp M <-> sp = None \/ N = M.
Proof.
split=> [|[->|->]] //; case: sp => [d|]; last by left.
have cancel a b c : String.append a b = String.append a c -> b = c by elim: a => //= x a ih [].
rewrite /trial_file; case: ifP => _ [].
  by move=> /str_int_inj ->; right.
by move=> /cancel [] /str_int_inj ->; right.
Qed.
End PoisExProps2.
