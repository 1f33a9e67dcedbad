(** * What the plotting functions of filterpy/stats/stats.py hand to matplotlib, and rand_student_t.

    The observable effect of these functions is what they draw: curves (lists of points), ellipses (matplotlib's
    Ellipse(xy, width, height, angle)), segments and surfaces.  Colours, labels, titles, line styles and the choice of the
    axes object are not modelled.  cos, sin, pi, scipy's norm, numpy.linalg.eigh and argsort are arguments. *)
From Coq Require Import List Arith Bool ZArith.
From Verif Require Import Ops Model_Ellipse Model_Resample.
Import ListNotations.
Set Implicit Arguments.
Unset Strict Implicit.

(** A number or a list of numbers. *)
Inductive sv (T : Type) := One (x : T) | Many (l : list T).
Arguments One {T}. Arguments Many {T}.

Section Plot.
Variable o : nops.
Notation sc := (sc o).
Notation pt := (sc * sc)%type.
Variables (cosf sinf : sc -> sc) (pi : sc).

(** _std_tuple_of (891-921).  [z_of p] is norm.interval(p)[1]; np.sqrt does not raise. *)
Variable z_of : sc -> sc.
Definition to_list (x : sv sc) : list sc := match x with One x => [x] | Many l => l end.
Definition std_tuple_of (var std interval : option (sv sc)) : res (list sc) :=
  match std with
  | Some s => Ok (to_list s)
  | None =>
      match interval with
      | Some i => Ok (map z_of (to_list i))
      | None => match var with None => Err ValueError | Some v => Ok (map (ssqrt o) (to_list v)) end
      end
  end.

(** matplotlib.patches.Ellipse: full widths, angle in degrees. *)
Record patch := Patch { p_xy : pt; p_width : sc; p_height : sc; p_angle : sc }.
Record drawing := Drawing { d_patches : list patch; d_marks : list pt; d_segments : list (pt * pt) }.

Definition two : sc := sadd o (s1 o) (s1 o).
Definition four : sc := sadd o two two.
(** numpy.degrees. *)
Definition degrees (x : sc) : sc := sdiv o (smul o x (snat o 180)) pi.

(** plot_covariance (924-1067). *)
Variable svd : M o 2 2 -> res (M o 2 2 * (sc * sc)).
Variable atan2 : sc -> sc -> sc.
Definition plot_covariance (mean : pt) (cov : option (M o 2 2)) (variance std interval : option (sv sc))
    (ellipse : option (sc * sc * sc)) (show_semiaxis show_center : bool) : res drawing :=
  let ell :=
    match cov, ellipse with
    | Some _, Some _ => Err ValueError
    | None, None => Err ValueError
    | Some P, None => covariance_ellipse svd atan2 P (s1 o)
    | None, Some e => Ok e
    end in
  rbind ell (fun e =>
  let '(a, e1, e2) := e in
  let angle := degrees a in
  let width := smul o e1 two in
  let height := smul o e2 two in
  rbind (std_tuple_of variance std interval) (fun sds =>
  let patches := map (fun sd => Patch mean (smul o sd width) (smul o sd height) angle) sds in
  let marks := if show_center then [mean] else [] in
  let h := sdiv o height four in
  let w := sdiv o width four in
  let b := sadd o a (sdiv o pi two) in
  let segments := if show_semiaxis then
      [(mean, (sadd o (fst mean) (smul o h (cosf b)), sadd o (snd mean) (smul o h (sinf b))));
       (mean, (sadd o (fst mean) (smul o w (cosf a)), sadd o (snd mean) (smul o w (sinf a))))]
    else [] in
  Ok (Drawing patches marks segments))).

(** plot_covariance_ellipse (866-888): deprecated; no interval, show_center at its default.  It returns nothing; what it
    draws is the result here. *)
Definition plot_covariance_ellipse (mean : pt) (cov : option (M o 2 2)) (variance std : option (sv sc))
    (ellipse : option (sc * sc * sc)) (show_semiaxis : bool) : res drawing :=
  plot_covariance mean cov variance std None ellipse show_semiaxis true.

(** plot_discrete_cdf (458-505): the curve.  matplotlib raises ValueError if xs and ys differ in length. *)
Definition plot_discrete_cdf (xs : option (list sc)) (ys : list sc) : res (list pt) :=
  let xs := match xs with None => map (snat o) (seq 0 (length ys)) | Some xs => xs end in
  if length xs =? length ys then Ok (combine xs (cumsum (o := o) ys)) else Err ValueError.

(** numpy.arange(lo, hi, step) for floats: ceil((hi - lo) / step) points lo + i * step. *)
Variable ceil : sc -> nat.
Definition arange (lo hi step : sc) : list sc :=
  map (fun i => sadd o lo (smul o (snat o i) step)) (seq 0 (ceil (sdiv o (ssub o hi lo) step))).

(** scipy.stats.norm(mean, std): its pdf, cdf and ppf. *)
Record frozen := Frozen { n_pdf : sc -> sc; n_cdf : sc -> sc; n_ppf : sc -> sc }.
Variable norm : sc -> sc -> frozen.
(** 0.001 and 0.999. *)
Variables (q_lo q_hi : sc).
Definition grid (n : frozen) (xlim : option pt) : list sc :=
  let '(lo, hi) := match xlim with None => (n_ppf n q_lo, n_ppf n q_hi) | Some l => l end in
  arange lo hi (sdiv o (ssub o hi lo) (snat o 1000)).

(** plot_gaussian_cdf (508-563): the curve. *)
Definition plot_gaussian_cdf (mean variance : sc) (xlim : option pt) : res (list pt) :=
  rbind (py_sqrt (o := o) variance) (fun sigma =>
  let n := norm mean sigma in Ok (map (fun x => (x, n_cdf n x)) (grid n xlim))).

(** Arguments that may be of the wrong type: None, a number (False and True are 0 and 1), a matplotlib axes object. *)
Inductive pv := PNone | PNum (x : sc) | PAxes.

(** plot_gaussian_pdf (566-648): the curve.  math.sqrt of an axes object raises TypeError; norm with an axes object as its
    std raises TypeError when it is used; plot is an attribute of axes objects only.  The line at the mean is not
    modelled. *)
Definition plot_gaussian_pdf (mean : sc) (variance std ax : pv) (xlim : option pt) : res (list pt) :=
  let ax := match ax with PNone => PAxes | _ => ax end in
  let sd :=
    match variance, std with
    | PNone, PNone => Err ValueError
    | PNone, s => Ok s
    | PNum v, PNone => rmap PNum (py_sqrt (o := o) v)
    | PAxes, PNone => Err TypeError
    | _, _ => Err ValueError
    end in
  rbind sd (fun s =>
  match s with
  | PNum s =>
      let n := norm mean s in let xs := grid n xlim in
      match ax with PAxes => Ok (map (fun x => (x, n_pdf n x)) xs) | _ => Err AttributeError end
  | _ => match xlim, ax with None, _ => Err TypeError | Some _, PAxes => Err TypeError | Some _, _ => Err AttributeError end
  end).
(** plot_gaussian (651-669): deprecated.  It passes its arguments by position, without one for std: ax arrives as std,
    mean_line as ax, xlim as mean_line, ylim as xlim. *)
Definition plot_gaussian (mean : sc) (variance ax mean_line : pv) (xlim ylim : option pt) : res (list pt) :=
  plot_gaussian_pdf mean variance ax mean_line ylim.

(** ** Three dimensions *)
(** numpy.linalg.eigh, and argsort of a list. *)
Variable eigh : M o 3 3 -> res (list sc * M o 3 3).
Variable argsort : list sc -> list nat.
(** _eigsorted (700-730). *)
Definition eigsorted (cov : M o 3 3) (asc : bool) : res (list sc * M o 3 3) :=
  rmap (fun ev =>
    let '(eigval, eigvec) := ev in
    let order := argsort eigval in
    let order := if asc then order else rev order in
    (map (fun k => nth k eigval (s0 o)) order, mfun 3 3 (fun i j => mget eigvec i (nth j order 0)))) (eigh cov).

(** np.linspace(0, hi, N). *)
Definition linspace (hi : sc) (N i : nat) : sc := smul o (snat o i) (sdiv o hi (snat o (N - 1))).

(** The checks on the shapes of mean and cov (790-803), for arrays of at most two dimensions. *)
Definition plot3d_check (mean cov : list nat) : option exn :=
  let mean := match mean with [] => [1; 1] | [k] => [1; k] | _ => mean end in
  let mean := match mean with [r; 1] => [1; r] | _ => mean end in
  match mean with
  | [1; 3] =>
      match cov with
      | [3; 3] => None
      | [3] => Some IndexError
      | [] => Some IndexError
      | _ => Some ValueError
      end
  | _ => Some ValueError
  end.

(** plot_3d_covariance (733-863) after the checks: the surface as point(i, j), i, j < N, and the largest radius, which
    gives the limits of the axes, mean - r to mean + r.  np.sqrt does not raise. *)
Definition plot_3d_covariance (mean : nat -> sc) (cov : M o 3 3) (std : sc) (N : nat) : res ((nat -> nat -> nat -> sc) * sc) :=
  rbind (eigsorted cov true) (fun ev =>
  let '(eigval, eigvec) := ev in
  let radii := map (fun e => smul o std (ssqrt o e)) eigval in
  let rad := fun k => nth k radii (s0 o) in
  if sltb o (nth 0 eigval (s0 o)) (s0 o) then Err ValueError else
  let u := linspace (smul o two pi) N in
  let v := linspace pi N in
  let x := fun i j => smul o (smul o (cosf (u i)) (sinf (v j))) (rad 0) in
  let y := fun i j => smul o (smul o (sinf (u i)) (sinf (v j))) (rad 1) in
  let z := fun i j => smul o (smul o (s1 o) (cosf (v j))) (rad 2) in
  (* np.kron of a vector of 3 and an N x N array: N x 3N *)
  let kron := fun c (a : nat -> nat -> sc) i j => smul o (mget eigvec (j / N) c) (a i (j mod N)) in
  let data := fun i j => sadd o (sadd o (kron 0 x i j) (kron 1 y i j)) (kron 2 z i j) in
  let r := fold_left (fun a b => if sltb o a b then b else a) (tl radii) (hd (s0 o) radii) in
  Ok (fun k i j => sadd o (data i (k * N + j)) (mean k), r)).

(** rand_student_t (1127-1135).  random.gauss(0, std) returns 0 + std * z with z a standard normal draw;
    random.gammavariate(alpha, beta) returns beta * gamma(alpha), a draw of the gamma distribution of scale 1. *)
Definition rand_student_t (z : sc) (gamma : sc -> sc) (df mu std : sc) : sc :=
  let x := sadd o (s0 o) (smul o std z) in
  let y := smul o two (smul o two (gamma (smul o (sdiv o (s1 o) two) df))) in
  sadd o (sdiv o x (ssqrt o (sdiv o y df))) mu.
End Plot.
