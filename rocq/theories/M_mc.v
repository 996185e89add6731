(** Model of the montecarlo class, infrastructure.py 2718-3312.

    - Numbers [V] with operations [Num]; dtypes (dtype, ctype) are not modelled: moments are in V (reals, or double precision numbers in C85),
      counts are integers (Z).
    - An instance is a record of its attributes, [None] standing for an attribute that is not set (or is None), except
      for [_paths]: a list of length 1 shared by instances obtained by indexing, whose value is passed along separately.
    - Methods that may raise return the state they leave behind, whether they raise or not.
    - Bins given as sequences are modelled as arrays (np.asarray in 2983 applied upfront). *)
From Coq Require Import String List Arith Bool ZArith.
From Verif Require Import Base BaseNum BaseArr BaseNd.
Import ListNotations.
Local Open Scope string_scope.
Local Open Scope res_scope.

Section MC.
Context {V : Type} {NV : Num V}.

(** values of the bins attribute: None, int, str, numeric array, array of objects (each an array of edges, or None) *)
Inductive bspec :=
| BNone | BInt (n : nat) | BStr (s : string) | BArr (a : arr V) | BObj (a : arr (option (list V))).

Record mc := mkMc {
  mc_bins : bspec;
  mc_range : option (V * V);
  mc_use : string;
  mc_mean : option (arr V);
  mc_moments : option (list (arr V));
  mc_center : option (arr V);
  mc_counts : option (arr (option (list Z)));
  mc_outside : option (arr Z) }.

(** 2826-2842, sample=None *)
Definition mc_new (bins : bspec) (range : option (V * V)) (use : string) : mc :=
  mkMc bins range use None None None None None.

(** *** np.histogram, one component *)
Definition nle (x y : V) : bool := negb (nlt y x).
(** number of entries below e; not above e *)
Definition below (l : list V) (e : V) : Z := Z.of_nat (length (filter (fun x => nlt x e) l)).
Definition upto (l : list V) (e : V) : Z := Z.of_nat (length (filter (fun x => nle x e) l)).
(** cumulated counts at the edges: searchsorted 'left' on the sorted sample, 'right' for the last edge *)
Fixpoint cum_counts (l : list V) (edges : list V) : list Z :=
  match edges with
  | [] => []
  | [e] => [upto l e]
  | e :: es => below l e :: cum_counts l es
  end.
Fixpoint zdiff (l : list Z) : list Z :=
  match l with x :: ((y :: _) as l') => (y - x)%Z :: zdiff l' | _ => [] end.
Fixpoint sorted_edges (l : list V) : bool :=
  match l with x :: ((y :: _) as l') => nle x y && sorted_edges l' | _ => true end.
(** bins given as edges *)
Definition hist_edges (l edges : list V) : res (list Z * list V) :=
  if sorted_edges edges then Ok (zdiff (cum_counts l edges), edges) else Err ValueError.

Definition nminl (l : list V) (d : V) : V := fold_left (fun m x => if nlt x m then x else m) l d.
Definition nmaxl (l : list V) (d : V) : V := fold_left (fun m x => if nlt m x then x else m) l d.
Definition half : V := ndiv none ntwo.
(** numpy's _get_outer_edges *)
Definition outer_edges (l : list V) (range : option (V * V)) : res (V * V) :=
  ' (first, last) <- match range with
                    | Some (a, b) => if nlt b a then Err ValueError else Ok (a, b)
                    | None => match l with [] => Ok (nzero, none) | x :: l' => Ok (nminl l' x, nmaxl l' x) end
                    end ;;
  if nlt first last then Ok (first, last) else Ok (nsub first half, nadd last half).
(** np.linspace(a, b, n + 1) *)
Definition linspace (a b : V) (n : nat) : list V :=
  map (fun i => if Nat.eqb i n then b else nadd a (nmul (nofnat i) (ndiv (nsub b a) (nofnat n)))) (seq 0 (S n)).
(** bins given as an integer *)
Definition hist_int (l : list V) (n : nat) (range : option (V * V)) : res (list Z * list V) :=
  if Nat.eqb n 0 then Err ValueError
  else ' (a, b) <- outer_edges l range ;; hist_edges l (linspace a b n).

(** number of bins selected by a method (oracle) *)
Variable auto_bins : string -> list V -> option (V * V) -> res nat.

Inductive hbins := HInt (n : nat) | HStr (s : string) | HEdges (l : list V) | HObj.
Definition np_histogram (l : list V) (b : hbins) (range : option (V * V)) : res (list Z * list V) :=
  match b with
  | HInt n => hist_int l n range
  | HStr s => n <- auto_bins s l range ;; hist_int l n range
  | HEdges e => hist_edges l e
  | HObj => Err TypeError          (* None, or an array of objects *)
  end.

(** *** update *)
(** 2893-2915 *)
Definition mc_sample (use : string) (sample : arr V) (axis : Z) : res (arr V) :=
  let sample := if Nat.eqb (List.length (shp sample)) 0 then mkArr [1] (fun _ => dat sample []) else sample in
  sample <- moveaxis_last sample axis ;;
  let n := last (shp sample) 0 in
  if String.eqb use "all" then Ok sample
  else if String.eqb use "even" || String.eqb use "odd" then
    if Nat.eqb (n mod 2) 0 then
      let h := n / 2 in
      let at_ ix j := dat sample (removelast ix ++ [j])%list in
      Ok (mkArr (removelast (shp sample) ++ [h])
                (fun ix => let x := at_ ix (last ix 0) in let y := at_ ix (h + last ix 0)%nat in
                           ndiv (nadd x (if String.eqb use "even" then y else nmul (nsub nzero none) y)) ntwo))
    else Err ValueError
  else Err ValueError.

Definition zeros (s : list nat) : arr V := mkArr s (fun _ => nzero).
(** (N*x + M*y)/(N + M), assigned to an array of the shape of x *)
Definition cumulate (N M : nat) (x y : arr V) : res (arr V) :=
  z <- aop (fun x y => ndiv (nadd (nmul (nofnat N) x) (nmul (nofnat M) y)) (nofnat (N + M))) x y ;;
  f <- assign (shp x) z ;;
  Ok (mkArr (shp x) f).

(** [k]-th power, k = 1, 2, ..., by repeated multiplication *)
Fixpoint powers (k : nat) (s0 s : list nat -> V) : list (list nat -> V) :=
  match k with
  | O => []
  | S k' => s :: powers k' s0 (fun ix => nmul (s ix) (s0 ix))
  end.

Fixpoint cumulate_all (N M : nat) (ms : list (arr V)) (ss : list (arr V)) : res (list (arr V)) :=
  match ms, ss with
  | m :: ms', s :: ss' => m' <- cumulate N M m s ;; r <- cumulate_all N M ms' ss' ;; Ok (m' :: r)
  | _, _ => Ok []
  end.

(** 2924-2959.  All assignments have the same shapes: if one fails the first one does, and nothing is changed but
    the initializations *)
Definition mc_init_moments (isfirst : bool) (sample : arr V) (a : mc) : mc :=
  if isfirst then
    let vs := removelast (shp sample) in
    mkMc (mc_bins a) (mc_range a) (mc_use a) (Some (zeros vs)) (Some (repeat (zeros vs) 4)) (Some (mean_last sample))
         (mc_counts a) (mc_outside a)
  else a.
Definition mc_moments_step (paths : nat) (sample : arr V) (a : mc) : res mc :=
  match mc_center a with
  | None => Err AttributeError
  | Some c =>
      let M := last (shp sample) 0 in
      d <- aop nsub sample (new_last c) ;;
      s0 <- assign (shp sample) d ;;
      match mc_moments a, mc_mean a with
      | Some ms, Some mean =>
          ms' <- cumulate_all paths M ms (map (fun s => mean_last (mkArr (shp sample) s)) (powers 4 s0 s0)) ;;
          mean' <- cumulate paths M mean (mean_last sample) ;;
          Ok (mkMc (mc_bins a) (mc_range a) (mc_use a) (Some mean') (Some ms') (Some c) (mc_counts a) (mc_outside a))
      | _, _ => Err TypeError
      end
  end.
Definition mc_update_moments (isfirst : bool) (paths : nat) (sample : arr V) (a : mc) : mc * res unit :=
  let a := mc_init_moments isfirst sample a in
  match mc_moments_step paths sample a with
  | Ok a' => (a', Ok tt)
  | Err e => (a, Err e)
  end.

(** [x[i] = y] *)
Definition set_at {A} (x : arr A) (i : list nat) (y : A) : arr A :=
  mkArr (shp x) (fun ix => if list_eq_dec Nat.eq_dec ix i then y else dat x ix).
Definition zsum (l : list Z) : Z := fold_right Z.add 0%Z l.
Definition set_hist (a : mc) (b : bspec) (c : arr (option (list Z))) (o : arr Z) : mc :=
  mkMc b (mc_range a) (mc_use a) (mc_mean a) (mc_moments a) (mc_center a) (Some c) (Some o).

(** 2996-3001 *)
Fixpoint first_hist (paths M : nat) (sample : arr V) (range : option (V * V)) (args : list nat -> hbins)
    (todo : list (list nat)) (b : arr (option (list V))) (c : arr (option (list Z))) (o : arr Z)
    : (arr (option (list V)) * arr (option (list Z)) * arr Z) * res unit :=
  match todo with
  | [] => ((b, c, o), Ok tt)
  | i :: todo' =>
      match (x <- sub_arr sample i ;; np_histogram (ravel x) (args i) range) with
      | Err e => ((b, c, o), Err e)
      | Ok (counts, edges) =>
          first_hist paths M sample range args todo' (set_at b i (Some edges)) (set_at c i (Some counts))
            (set_at o i (Z.of_nat (paths + M) - zsum counts)%Z)
      end
  end.
(** 3007-3010; the bins of a component are edges, here *)
Fixpoint next_hist (M : nat) (sample : arr V) (b : arr (option (list V)))
    (todo : list (list nat)) (c : arr (option (list Z))) (o : arr Z)
    : (arr (option (list Z)) * arr Z) * res unit :=
  match todo with
  | [] => ((c, o), Ok tt)
  | i :: todo' =>
      match (x <- sub_arr sample i ;;
             np_histogram (ravel x) (match dat b i with Some e => HEdges e | None => HObj end) None) with
      | Err e => ((c, o), Err e)
      | Ok (counts, _) =>
          match dat c i with
          | None => ((c, o), Err TypeError)
          | Some old =>
              next_hist M sample b todo' (set_at c i (Some (map (fun p => fst p + snd p)%Z (combine old counts))))
                (set_at o i (dat o i + (Z.of_nat M - zsum counts))%Z)
          end
      end
  end.
(** 3013-3018 *)
Definition hist_check (paths M : nat) (vs : list nat) (c : arr (option (list Z))) (o : arr Z) : res unit :=
  if forallb (fun i => match dat c i with Some l => Z.eqb (zsum l + dat o i) (Z.of_nat (paths + M)) | None => false end)
             (ndindex vs)
  then Ok tt else Err RuntimeError.

Definition shape_eqb (a b : list nat) : bool := if list_eq_dec Nat.eq_dec a b then true else false.

(** 2961-3018 *)
Definition mc_update_histogram (isfirst : bool) (paths : nat) (sample : arr V) (a : mc) : mc * res unit :=
  match mc_bins a, mc_moments a with
  | BNone, _ => (a, Ok tt)
  | _, None | _, Some [] => (a, Err ValueError)            (* vshape *)
  | bins, Some (m0 :: _) =>
      let vs := shp m0 in
      let M := last (shp sample) 0 in
      if isfirst then
        let b0 := mkArr vs (fun _ => None) in
        let c0 := mkArr vs (fun _ => None) in
        let o0 := mkArr vs (fun _ => 0%Z) in
        let run b range args :=
          match first_hist paths M sample range args (ndindex vs) b c0 o0 with
          | ((b, c, o), r) =>
              (set_hist a (BObj b) c o, match r with Ok _ => hist_check paths M vs c o | Err e => Err e end)
          end in
        match bins with
        | BInt n => run b0 (mc_range a) (fun _ => HInt n)
        | BStr s => run b0 (mc_range a) (fun _ => HStr s)
        | BArr m =>
            if shape_eqb (removelast (shp m)) vs && negb (Nat.eqb (List.length (shp m)) 0) then
              let e i := row m i in
              run (mkArr vs (fun i => Some (e i))) None (fun i => HEdges (e i))
            else (set_hist a (BObj b0) c0 o0, Err (if Nat.eqb (List.length (shp m)) 0 && shape_eqb [] vs then TypeError else ValueError))
        | BObj m =>
            if shape_eqb (shp m) vs then
              run m None (fun i => match dat m i with Some e => HEdges e | None => HObj end)
            else if shape_eqb (removelast (shp m)) vs then
              run b0 None (fun _ => HObj)
            else (set_hist a (BObj b0) c0 o0, Err ValueError)
        | BNone => (a, Ok tt)
        end
      else
        match bins, mc_counts a, mc_outside a with
        | BObj b, Some c, Some o =>
            match next_hist M sample b (ndindex vs) c o with
            | ((c', o'), r) =>
                (set_hist a (BObj b) c' o', match r with Ok _ => hist_check paths M vs c' o' | Err e => Err e end)
            end
        | _, _, _ => (a, Err TypeError)
        end
  end.

(** 2869-2922: the number of paths and the state, after the call *)
Definition mc_update (paths : nat) (a : mc) (sample : arr V) (axis : Z) : (nat * mc) * res unit :=
  match mc_sample (mc_use a) sample axis with
  | Err e => ((paths, a), Err e)
  | Ok sample =>
      let isfirst := Nat.eqb paths 0 in
      match mc_update_moments isfirst paths sample a with
      | (a, Err e) => ((paths, a), Err e)
      | (a, Ok _) =>
          match mc_update_histogram isfirst paths sample a with
          | (a, Err e) => ((paths, a), Err e)
          | (a, Ok _) => ((paths + last (shp sample) 0, a), Ok tt)
          end
      end
  end.
(** a sequence of updates, stopping at the first exception *)
Fixpoint mc_updates (paths : nat) (a : mc) (l : list (arr V * Z)) : (nat * mc) * res unit :=
  match l with
  | [] => ((paths, a), Ok tt)
  | (x, axis) :: l' =>
      match mc_update paths a x axis with
      | ((paths, a), Ok _) => mc_updates paths a l'
      | r => r
      end
  end.

(** *** statistics 3043-3076 *)
Section Stats.
Variable paths : nat.
Variable a : mc.
Definition on_moments {A} (f : list (arr V) -> res A) : res A :=
  match mc_moments a with None => Err TypeError | Some ms => f ms end.
(** elementwise function of m1, m2, m3, m4 *)
Definition stat (f : V -> V -> V -> V -> V) : res (arr V) :=
  on_moments (fun ms => match ms with
    | [m1; m2; m3; m4] => Ok (mkArr (shp m1) (fun ix => f (dat m1 ix) (dat m2 ix) (dat m3 ix) (dat m4 ix)))
    | _ => Err ValueError end).
Definition three : V := nadd ntwo none.
Definition four : V := nadd ntwo ntwo.
Definition six : V := nadd four ntwo.
Definition var1 (m1 m2 m3 m4 : V) : V := if Nat.ltb paths 2 then nmul nzero m1 else nsub m2 (nmul m1 m1).
Definition mc_var : res (arr V) := stat var1.
Definition mc_std : res (arr V) := stat (fun m1 m2 m3 m4 => nsqrt (var1 m1 m2 m3 m4)).
(** v**1.5 as v*sqrt(v) *)
Definition mc_skew : res (arr V) :=
  stat (fun m1 m2 m3 m4 =>
    if Nat.ltb paths 2 then nmul nzero m1
    else let v := nsub m2 (nmul m1 m1) in
         ndiv (nadd (nsub m3 (nmul (nmul three m1) m2)) (nmul ntwo (nmul (nmul m1 m1) m1))) (nmul v (nsqrt v))).
(** the conditional expression binds less tightly than the sum *)
Definition mc_kurtosis : res (arr V) :=
  stat (fun m1 m2 m3 m4 =>
    if Nat.ltb paths 2 then nadd (nsub nzero three) (nmul nzero m1)
    else let v := nsub m2 (nmul m1 m1) in
         ndiv (nsub (nadd (nsub m4 (nmul (nmul four m1) m3)) (nmul (nmul (nmul six m1) m1) m2))
                    (nmul three (nmul (nmul m1 m1) (nmul m1 m1)))) (nmul v v)).
(** None: nan *)
Definition mc_stderr : option (res (arr V)) :=
  if Nat.ltb paths 2 then None
  else Some (stat (fun m1 m2 m3 m4 => nsqrt (ndiv (var1 m1 m2 m3 m4) (nofnat (paths - 1))))).
End Stats.

(** *** distributions *)
(** 3090-3115, for instances with at least one component *)
Definition mc_histogram (paths : nat) (a : mc) : res (list Z * list V) :=
  match (Nat.eqb paths 0), mc_bins a, mc_counts a with
  | true, _, _ | _, BNone, _ => Err ValueError
  | _, BObj b, Some c =>
      match ndindex (shp c) with
      | [i] => match dat c i, dat b i with Some x, Some e => Ok (x, e) | _, _ => Err TypeError end
      | _ => Err IndexError
      end
  | _, _, _ => Err AttributeError
  end.
Fixpoint ndiffl (l : list V) : list V :=
  match l with x :: ((y :: _) as l') => nsub y x :: ndiffl l' | _ => [] end.
Variable ofZ : Z -> V.
(** 3132-3133 *)
Definition density (counts : list Z) (edges : list V) : list V :=
  map (fun p => ndiv (ndiv (ofZ (fst p)) (ofZ (zsum counts))) (snd p)) (combine counts (ndiffl edges)).
Definition mc_density_histogram (paths : nat) (a : mc) : res (list V * list V) :=
  ' (c, e) <- mc_histogram paths a ;; Ok (density c e, e).
(** 3135-3147 *)
Definition mc_outpaths (paths : nat) (a : mc) : res Z :=
  h <- mc_histogram paths a ;;
  match mc_outside a with
  | Some o => match ndindex (shp o) with [i] => Ok (dat o i) | _ => Err ValueError end
  | None => Err AttributeError
  end.

(** scipy.interpolate.interp1d, kind='linear', fill_value=(lo, hi), bounds_error=False, on sorted points: searchsorted
    'left', clipped *)
Fixpoint search_left (xx : list V) (x : V) : nat :=
  match xx with [] => 0 | y :: xx' => if nlt y x then S (search_left xx' x) else 0 end.
Definition interp_linear (xx pp : list V) (lo hi x : V) : V :=
  if nlt x (nth 0 xx nzero) then lo
  else if nlt (last xx nzero) x then hi
  else
    let n := List.length xx in
    let i := Nat.min (Nat.max (search_left xx x) 1) (n - 1) in
    let x0 := nth (i - 1) xx nzero in let x1 := nth i xx nzero in
    let y0 := nth (i - 1) pp nzero in let y1 := nth i pp nzero in
    nadd (nmul (ndiv (nsub y1 y0) (nsub x1 x0)) (nsub x x0)) y0.
Fixpoint cumsum (acc : V) (l : list V) : list V :=
  match l with [] => [] | x :: l' => nadd acc x :: cumsum (nadd acc x) l' end.
Definition midpoints (e : list V) : list V :=
  match e with [] => [] | _ :: e' => map (fun p => ndiv (nadd (fst p) (snd p)) ntwo) (combine e e') end.
(** 3178-3196, method='interp', kind='linear' *)
Definition cdf_interp (dens edges : list V) (x : V) : V :=
  let deltas := ndiffl edges in
  let pp := nzero :: cumsum nzero (map (fun p => nmul (fst p) (snd p)) (combine deltas dens)) in
  interp_linear edges pp nzero none x.
Definition pdf_interp (dens edges : list V) (x : V) : V :=
  let xx := nth 0 edges nzero :: midpoints edges ++ [last edges nzero] in
  let pp := nzero :: dens ++ [nzero] in
  interp_linear xx pp nzero nzero x.
(** 3155-3176, method='gaussian_kde'; kernel: the normal density, or its integral expressed by erf *)
Variable kcdf kpdf : V -> V.
Definition kde (cdf : bool) (bw : V) (dens edges : list V) (x : V) : V :=
  nsum (map (fun p => let '(d, (m, w)) := p in
     let width := nmul w bw in
     if cdf then nmul (nmul (ndiv width bw) (kcdf (ndiv (nsub x m) width))) d
     else nmul (nmul (ndiv none bw) (kpdf (ndiv (nsub x m) width))) d)
    (combine dens (combine (midpoints edges) (ndiffl edges)))).
Definition mc_pdf_or_cdf (paths : nat) (a : mc) (method : string) (cdf : bool) (bw : V) (x : V) : res V :=
  ' (d, e) <- mc_density_histogram paths a ;;
  if String.eqb method "gaussian_kde" then Ok (kde cdf bw d e x)
  else if String.eqb method "interp" then Ok (if cdf then cdf_interp d e x else pdf_interp d e x)
  else Err ValueError.

(** *** indexing 3025-3039, for a tuple of non negative integers *)
Definition sub_opt {A} (x : option (arr A)) (i : list nat) : res (option (arr A)) :=
  match x with None => Err TypeError | Some x => y <- sub_arr x i ;; Ok (Some y) end.
Definition mc_getitem (paths : nat) (a : mc) (i : list nat) : res mc :=
  ' (b, r) <- match mc_bins a with
              | BNone => Ok (BNone, mc_range a) | BInt n => Ok (BInt n, mc_range a) | BStr s => Ok (BStr s, mc_range a)
              | BArr m => m' <- sub_arr m i ;; Ok (BArr m', None)
              | BObj m => m' <- sub_arr m i ;; Ok (BObj m', None)
              end ;;
  if Nat.eqb paths 0 then Ok (mkMc b r "all" None None None None None)
  else
    mean <- sub_opt (mc_mean a) i ;;
    ms <- match mc_moments a with
          | None => Err TypeError
          | Some ms => (fix go l := match l with [] => Ok [] | m :: l' => x <- sub_arr m i ;; r <- go l' ;; Ok (x :: r) end) ms
          end ;;
    c <- sub_opt (mc_counts a) i ;;
    o <- sub_opt (mc_outside a) i ;;
    Ok (mkMc b r "all" mean (Some ms) None c o).
(** what the instance indexed by [i] is, once its parent has been updated to [a]: arrays are shared (views), except that
    a complete index reads numbers out of the arrays of moments and of the paths outside, so that only the array of
    counts is shared *)
Definition mc_resync (a child : mc) (i : list nat) : mc :=
  match mc_counts a, mc_mean a with
  | Some c, Some m =>
    let full := Nat.eqb (List.length i) (List.length (shp m)) in
    let v {A} (x : arr A) := mkArr (skipn (List.length i) (shp x)) (fun ix => dat x (i ++ ix)%list) in
    mkMc (mc_bins child) (mc_range child) (mc_use child)
       (if full then mc_mean child else option_map v (mc_mean a))
       (if full then mc_moments child else option_map (map v) (mc_moments a))
       (mc_center child) (Some (v c))
       (if full then mc_outside child else option_map v (mc_outside a))
  | _, _ => child
  end.
End MC.
Arguments bspec V : clear implicits.
Arguments mc V : clear implicits.
