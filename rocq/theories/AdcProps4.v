(** Property C134: the files of the windows; adcirc_ts_plot, tri_mesh_plot. *)
Set Warnings "-notation-overridden,-ambiguous-paths".
From Coq Require Import String Ascii ZArith DecimalString.
From mathcomp Require Import all_ssreflect all_algebra.
From mathcomp Require Import zify.
From Verif Require Import Py Nd Xnum XnumProofs UtilModel DensityModel NdProofs DensityProps3 UtilModel2 UtilProps
  StModel StProps StProps2 StProps3 StProps4 StProps5 DrawModel DrawProps DrawProps3 ContModel PoisModel StExModel StExProps
  PoisExModel PoisExProps PoisExProps2 PoisExProps3 AdcModel AdcProps AdcProps2 AdcProps3.
Set Implicit Arguments. Unset Strict Implicit. Unset Printing Implicit Defensive.
Import Order.Theory GRing.Theory Num.Theory.
Local Open Scope ring_scope.

(** ** Files *)
Fixpoint no_us (s : string) : bool := if s is String c s' then ~~ Ascii.eqb c "_" && no_us s' else true.
Lemma no_us_str N : no_us (str_int N).
Proof.
have u d : no_us (NilEmpty.string_of_uint d) by elim: d.
have u0 d : no_us (NilZero.string_of_uint d) by case: d => //= d; rewrite u.
by rewrite /str_int; case: (Z.to_int _) => d /=; rewrite ?u0.
Qed.
Lemma split_us s s' r r' : no_us s -> no_us s' -> (s ++ "_" ++ r)%string = (s' ++ "_" ++ r')%string -> s = s' /\ r = r'.
Proof.
elim: s s' => [|c s ih] [|c' s'] /=.
- by move=> _ _ [->].
- by move=> _ /andP [h _] [e _]; move: h; rewrite -e.
- by move=> /andP [h _] _ [e _]; move: h; rewrite e.
by move=> /andP [_ h] /andP [_ h'] [-> e]; have [-> ->] := ih s' h h' e.
Qed.
(** C134: the name says how many components and how many times, nothing else ... *)
Theorem C134_files pre nc nc' (N N' : nat) : named pre nc N = named pre nc' N' <-> nc = nc' /\ N = N'.
Proof.
split=> [|[-> ->] //]; rewrite /named.
have cancel a b c : String.append a b = String.append a c -> b = c by elim: a => //= x a ih [].
by move=> /cancel /(split_us (no_us_str nc) (no_us_str nc')) [/str_int_inj -> /str_int_inj [->]].
Qed.
Lemma app_inj a b c : (a ++ b)%string = (a ++ c)%string -> b = c. Proof. by elim: a => //= x a ih []. Qed.
(** ... and the same for files in a directory. *)
Theorem C134_file_in d pre nc nc' (N N' : nat) :
  file_in (Some d) (named pre nc N) = file_in (Some d) (named pre nc' N') <-> nc = nc' /\ N = N'.
Proof.
rewrite -(C134_files pre nc nc' N N') /file_in; split=> [|-> //]; case: ifP => _ [] //.
by move=> /app_inj [].
Qed.
(** The figures of one window go to three different files. *)
Theorem C134_distinct d nc (N : nat) :
  let f := file_in (Some d) in
  [/\ f (named "pca_vecs_" nc N) <> f (named "updated_dist_" nc N),
      f (named "pca_vecs_" nc N) <> f "qoi_{num_components}_{ndata}"%string &
      f (named "updated_dist_" nc N) <> f "qoi_{num_components}_{ndata}"%string].
Proof.
rewrite /file_in /=; case: ifP => _; split=> // -[] //; by move=> /app_inj.
Qed.

Lemma In_nth_seq (T : Type) (x0 x : T) l : List.In x l -> exists2 j, (j < size l)%N & nth x0 l j = x.
Proof.
elim: l => [//|y l ih] [->|/ih [j hj e]]; first by exists 0%N.
by exists j.+1.
Qed.

Section AdcProps4.
Variable R : rcfType.
Notation xnum := (xnum R).
Notation nd := (nd R).
Variable parse : string -> res R.
Variable mesh : nd -> nd -> nd -> res unit.
Notation tsmark := (tsmark R).

(** ** The time series *)
(** The measurements and the first 50 curves of the first sensor. *)
Definition full_series (ti m d : nd) (t curves : nat) : seq tsmark :=
  map (@TsArt R) (OnCurrent (Points (take t (data ti)) (take t (data m)) None) ::
    [seq Curve (take t (data ti)) [seq ent d i j | j <- iota 0 t] | i <- iota 0 curves]).
(** Window [i]: its two ends with its line style, then its number, if there are as many places
    for numbers as windows. *)
Definition window_marks (bounds : seq (R * R)) (places : option (seq (R * R))) : seq tsmark :=
  flatten [seq let st := nth ""%string [:: "--"; ":"; "-."]%string i in
           [:: Edge st (nth (0, 0) bounds i).1; Edge st (nth (0, 0) bounds i).2] ++
           (if places is Some ps then
              if size ps == size bounds then [:: WindowLabel i.+1 (nth (0, 0) ps i).1 (nth (0, 0) ps i).2] else [::]
            else [::])
          | i <- iota 0 (size bounds)].
(** C134: at most three windows can be drawn: there are three line styles. *)
Theorem C134_ts_plot (s : st R) n p k t d lam se ti m (windows : seq (string * string)) (bounds : seq (R * R))
    (wind : option (seq R * seq R)) (labels : option (seq (string * R))) (places : option (seq (R * R))) sp :
  setup s n p k t d lam se ti -> Nd.shape se = [:: k; 2%N] -> (0 < k)%N -> (0 < t)%N -> s_meas s = Some (NArr m) ->
  size bounds = size windows ->
  (forall i, (i < size windows)%N -> parse (nth (""%string, ""%string) windows i).1 = Ok (nth (0, 0) bounds i).1 /\
                                     parse (nth (""%string, ""%string) windows i).2 = Ok (nth (0, 0) bounds i).2) ->
  match labels, places with
  | Some ls, Some ps => size ps = size ls /\ forall i, (i < size ls)%N -> let l := nth (""%string, 0) ls i in
      parse l.1 = Ok (nth (0, 0) ps i).1 /\ (nth (0, 0) ps i).2 = l.2
  | None, None => True
  | _, _ => False
  end ->
  (if wind is Some (x, y) then size x = size y else True) ->
  adcirc_ts_plot parse s windows wind labels sp =
  if (3 < size windows)%N then Err IndexError else
  Ok (full_series ti m d t (minn 50 n) ++ (if wind is Some (x, y) then [:: Wind x y] else [::]) ++ window_marks bounds places,
      file_in sp "adcirc_full_ts").
Proof.
move=> su hse k0 t0 hm sb hb hl hw.
have mx : meant k 0 0%N by rewrite /meant; lia.
have eI : picked n None = Ok (iota 0 n) by [].
have eT : picked t None = Ok (iota 0 t) by [].
have T0 : (0 < size (iota 0 t))%N by rewrite size_iota.
have [ts [ms [cs [ep [sts nts] [sms nms] scs ncs]]]] := @C127_plot_ts R s n p k t d lam se ti m None None 0 0%N (iota 0 n) (iota 0 t) 50 su hse hm eI eT T0 mx.
rewrite size_iota in sts nts sms nms scs ncs; rewrite size_iota in scs ncs.
have sti : size (data ti) = t.
  by case: su => _ _ _ [_ [/eqP wt ht]] _; rewrite wt; case: ht => ->; rewrite /prodn /= ?muln1.
have smm : size (data m) = (k * t)%N by case: su => _ _ _ _; rewrite hm.
have tk : (t <= k * t)%N by rewrite leq_pmull.
have ets : ts = take t (data ti).
  apply: (@eq_from_nth _ 0); first by rewrite sts size_take sti ltnn.
  by rewrite sts => j hj; rewrite nts // nth_take // nth_iota.
have ems : ms = take t (data m).
  apply: (@eq_from_nth _ 0); first by rewrite sms size_takel // smm.
  by rewrite sms => j hj; rewrite nms // nth_take // nth_iota // mul0n !add0n.
have ecs : cs = [seq [seq ent d i j | j <- iota 0 t] | i <- iota 0 (minn 50 n)].
  apply: (@eq_from_nth _ [::]); rewrite ?size_map ?size_iota // scs => i hi; have [si ni] := ncs i hi.
  have hin : (i < n)%N by apply: leq_trans hi _; rewrite geq_minr.
  rewrite (nth_map 0%N) ?size_iota // nth_iota // add0n.
  apply: (@eq_from_nth _ 0); rewrite ?size_map ?size_iota // si => j hj.
  by rewrite ni // (nth_map 0%N) ?size_iota // !nth_iota // !add0n mul0n add0n.
rewrite /adcirc_ts_plot (ep : plot_ts s None None (Some 0) 50 = _); cbn [rbind].
have -> : (if wind is Some (x, y) then _ <- guard (size x == size y) ValueError ;; Ok [:: Wind x y] else Ok [::]) =
          Ok (if wind is Some (x, y) then [:: Wind x y] else [::]).
  by case: (wind) hw => [[x y]|] //= ->; rewrite eqxx.
cbn [rbind].
pose wm i := [:: Edge (nth ""%string [:: "--"; ":"; "-."]%string i) (nth (0, 0) bounds i).1;
                 Edge (nth ""%string [:: "--"; ":"; "-."]%string i) (nth (0, 0) bounds i).2] ++
           (if places is Some ps then
              if size ps == size bounds then [:: WindowLabel i.+1 (nth (0, 0) ps i).1 (nth (0, 0) ps i).2] else [::]
            else [::]).
have one p0 : List.In p0 (zip (iota 0 (size windows)) windows) ->
    draw_window parse (size windows) labels p0.1 p0.2 = if (p0.1 < 3)%N then Ok (wm p0.1) else Err IndexError.
  move=> /(@In_nth_seq _ (0%N, (""%string, ""%string))) [j]; rewrite size_zip size_iota minnn => hj.
  rewrite nth_zip ?size_iota // nth_iota // add0n => <-; cbn [fst snd].
  have [h1 h2] := hb j hj; rewrite /draw_window h1; cbn [rbind]; rewrite (ohead_drop ""%string); cbn [size line_styles].
  case: ifP => h3 //; cbn [of_opt rbind]; rewrite h2; cbn [rbind]; rewrite /wm.
  case: labels places hl {wm} => [ls|] [ps|] //; cbn [rbind] => hl //; case: hl => sl hl; rewrite sl sb.
  case: eqP => es //; cbn [rbind]; rewrite (ohead_drop (""%string, 0)) es hj; cbn [of_opt rbind].
  by rewrite -es in hj; have [-> ->] := hl j hj.
rewrite (rmapM_if one).
have -> : all (fun p0 : nat * (string * string) => (p0.1 < 3)%N) (zip (iota 0 (size windows)) windows) = (size windows <= 3)%N.
  rewrite -(all_map fst (fun i => (i < 3)%N)) -/(unzip1 _) unzip1_zip ?size_iota //.
  case: (size windows) => [//|q]; apply/allP/idP => [h|h i].
    by have := h q; rewrite mem_iota add0n ltnSn => /(_ isT).
  by rewrite mem_iota add0n => /= hq; apply: leq_trans hq h.
case: leqP => // _; cbn [rbind]; rewrite ets ems ecs.
have -> : [seq wm p0.1 | p0 <- zip (iota 0 (size windows)) windows] = [seq wm i | i <- iota 0 (size windows)].
  by rewrite (map_comp wm fst) -/(unzip1 _) unzip1_zip ?size_iota.
rewrite /full_series -map_comp /file_in /path_join /window_marks /wm sb.
by case: sp.
Qed.

(** ** The mesh *)
(** What is drawn for value "DP": the elevation, not below the cutoff.  For any other key of the
    data set it is the array "wind_speed_mult_0", whatever the key. *)
Definition shown (ds : dset R) (value : string) (cutoff : R) : option (seq R * string) :=
  if (value =? "DP")%string then
    if lookup ds "DP" is Some (VArr a) then Some ([seq Num.max cutoff (- x) | x <- data a], "Bathymetry (m)"%string) else None
  else if lookup ds value is None then None
  else if lookup ds "wind_speed_mult_0" is Some (VArr a) then Some (data a, "Wind Speed Multiplier"%string) else None.
Theorem C134_mesh ds value (stations : option (seq int)) zoom cutoff sp x y tr xe ye v lab (n : nat) (pos : seq nat) :
  lookup ds "X" = Some (VArr x) -> lookup ds "Y" = Some (VArr y) -> lookup ds "triangles" = Some (VArr tr) ->
  mesh x y tr = Ok tt -> shown ds value cutoff = Some (v, lab) -> size v = size (data x) ->
  (if stations is Some l then [/\ lookup ds "XEL" = Some (VArr xe), lookup ds "YEL" = Some (VArr ye),
     size (data xe) = n, size (data ye) = n & size pos = size l /\ forall i, (i < size l)%N -> meant n (nth 0 l i) (nth 0%N pos i)]
   else pos = [::]) ->
  tri_mesh_plot mesh ds value stations zoom cutoff sp =
  Ok (MeshFig v lab (omap (fun z => (z.1.1 - z.1.2, z.1.1 + z.1.2)) zoom) (omap (fun z => (z.2.1 - z.2.2, z.2.1 + z.2.2)) zoom)
       [seq (i, nth 0 (data xe) (nth 0%N pos i), nth 0 (data ye) (nth 0%N pos i)) | i <- iota 0 (size pos)]
       (file_in sp ("si-" ++ value))).
Proof.
move=> ex ey et em es sv hst; rewrite /tri_mesh_plot /grid_arr ex ey et; cbn [rbind]; rewrite em; cbn [rbind].
have -> : mesh_values ds value cutoff = Ok (v, lab).
  move: es; rewrite /shown /mesh_values /grid_arr; case: ifP => _.
    case: (lookup ds "DP") => [v0|//]; case: v0 => //= a [<- <-]; congr (Ok (_, _)); apply/eq_map => z.
    by rewrite maxEle leNgt; case: (_ < _).
  case: (lookup ds value) => [?|] //; case: (lookup ds "wind_speed_mult_0") => [v0|//]; by case: v0 => //= a [<- <-].
cbn [rbind fst snd]; rewrite sv /guard eqxx; cbn [rbind].
have -> : (if stations is Some l then rmapM (fun p0 => station ds p0.1 p0.2) (zip (iota 0 (size l)) l) else Ok [::]) =
   Ok [seq (i, nth 0 (data xe) (nth 0%N pos i), nth 0 (data ye) (nth 0%N pos i)) | i <- iota 0 (size pos)].
  case: stations hst => [l|-> //] [exe eye sxe sye [sp' hp]].
  have one p0 : List.In p0 (zip (iota 0 (size l)) l) -> station ds p0.1 p0.2 =
      Ok (p0.1, nth 0 (data xe) (nth 0%N pos p0.1), nth 0 (data ye) (nth 0%N pos p0.1)).
    move=> /In_mem /(nthP (0%N, 0)) [j]; rewrite size_zip size_iota minnn => hj.
    rewrite nth_zip ?size_iota // nth_iota // add0n => <-; cbn [fst snd].
    have h := hp j hj; have pi : py_index n (nth 0 l j) = Ok (nth 0%N pos j).
      have := py_indexP n (nth 0 l j); case: ifP => [_ [z -> hz]|e _]; last by case: h; lia.
      by congr Ok; case: h hz; rewrite /meant; lia.
    by rewrite /station /grid_arr exe eye; cbn [rbind]; rewrite /at_idx sxe sye pi.
  rewrite (rmapM_ok one) sp'.
  by rewrite (map_comp (fun i => (i, nth 0 (data xe) (nth 0%N pos i), nth 0 (data ye) (nth 0%N pos i))) fst) -/(unzip1 _) unzip1_zip ?size_iota.
by cbn [rbind]; rewrite /file_in /path_join; case: sp => [q|] //=; case: ifP; case: zoom => [[? ?]|].
Qed.
(** C134: a value that is not in the data set raises ValueError, however the rest is. *)
Theorem C134_mesh_unknown ds value stations zoom cutoff sp x y tr :
  lookup ds "X" = Some (VArr x) -> lookup ds "Y" = Some (VArr y) -> lookup ds "triangles" = Some (VArr tr) ->
  mesh x y tr = Ok tt -> value <> "DP"%string -> lookup ds value = None ->
  tri_mesh_plot mesh ds value stations zoom cutoff sp = Err ValueError.
Proof.
move=> ex ey et em /String.eqb_neq nv ev; rewrite /tri_mesh_plot /grid_arr ex ey et; cbn [rbind]; rewrite em; cbn [rbind].
by rewrite /mesh_values nv ev.
Qed.
(** C134: the drawing of two keys other than "DP" only differs in the name of the file. *)
Theorem C134_mesh_same ds value value' stations zoom cutoff :
  value <> "DP"%string -> value' <> "DP"%string -> lookup ds value <> None -> lookup ds value' <> None ->
  tri_mesh_plot mesh ds value stations zoom cutoff None = tri_mesh_plot mesh ds value' stations zoom cutoff None.
Proof.
move=> /String.eqb_neq n1 /String.eqb_neq n2 e1 e2; rewrite /tri_mesh_plot /mesh_values n1 n2.
by case: (lookup ds value) e1 => // ? _; case: (lookup ds value') e2 => // ? _.
Qed.
End AdcProps4.
