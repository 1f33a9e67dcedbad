(** * filterpy/leastsq/least_squares.py and filterpy/memory/fading_memory.py

    x and K are represented by their entries, absent ones being 0. *)
From Coq Require Import List Arith Bool.
From Verif Require Import Ops Model_GH.
Import ListNotations.

Section LSQ.
Variable o : sops.
Local Notation "a + b" := (sadd o a b) : s_scope.
Local Notation "a - b" := (ssub o a b) : s_scope.
Local Notation "a * b" := (smul o a b) : s_scope.
Local Notation "a / b" := (sdiv o a b) : s_scope.
Local Notation "# k" := (snat o k) (at level 0, k at level 0) : s_scope.
Local Notation "a ** k" := (spow o a k) (at level 30) : s_scope.
Local Open Scope s_scope.

(** ** LeastSquaresFilter (29-215) *)
Record lsq := mkLSQ {
  l_dt : sc o; l_sigma : sc o; l_order : nat; l_n : nat;
  l_x0 : sc o; l_x1 : sc o; l_x2 : sc o;
  l_K0 : sc o; l_K1 : sc o; l_K2 : sc o; l_y : sc o }.

(** reset (104-110). *)
Definition lsq_reset (s : lsq) : lsq :=
  mkLSQ (l_dt s) (l_sigma s) (l_order s) 0 (s0 o) (s0 o) (s0 o) (s0 o) (s0 o) (s0 o) (s0 o).

(** __init__ (93-102). *)
Definition lsq_init (dt : sc o) (neg : bool) (order : nat) (sigma : sc o) : res lsq :=
  if neg || (2 <? order) then Err ValueError else
  Ok (lsq_reset (mkLSQ dt sigma order 0 (s0 o) (s0 o) (s0 o) (s0 o) (s0 o) (s0 o) (s0 o))).

(** update (112-155).  The residual is a local variable; self.y keeps its value. *)
Definition lsq_update (z : sc o) (s : lsq) : lsq :=
  let k := S (l_n s) in
  let n := #k in
  let dt := l_dt s in
  let x0 := l_x0 s in let x1 := l_x1 s in let x2 := l_x2 s in
  match l_order s with
  | 0 =>
      let K0 := #1 / n in
      let y := z - x0 in
      mkLSQ dt (l_sigma s) 0 k (x0 + K0 * y) x1 x2 K0 (l_K1 s) (l_K2 s) (l_y s)
  | 1 =>
      let K0 := #2 * (#2 * n - #1) / (n * (n + #1)) in
      let K1 := #6 / (n * (n + #1) * dt) in
      let y := z - x0 - dt * x1 in
      mkLSQ dt (l_sigma s) 1 k (x0 + (K0 * y + dt * x1)) (x1 + K1 * y) x2 K0 K1 (l_K2 s) (l_y s)
  | order =>
      let den := n * (n + #1) * (n + #2) in
      let K0 := #3 * (#3 * n ** 2 - #3 * n + #2) / den in
      let K1 := #18 * (#2 * n - #1) / (den * dt) in
      let K2 := #60 / (den * dt ** 2) in
      let y := z - x0 - dt * x1 - half o * dt ** 2 * x2 in
      mkLSQ dt (l_sigma s) order k
        (x0 + (K0 * y + x1 * dt + half o * dt ** 2 * x2))
        (x1 + (K1 * y + x2 * dt)) (x2 + K2 * y) K0 K1 K2 (l_y s)
  end.

(** errors (157-205): (error, std), entries beyond the order 0.  Dividing the float
    12. or the integer 720 by the integer 0 raises ZeroDivisionError. *)
Definition lsq_errors (s : lsq) : res ((sc o * sc o * sc o) * (sc o * sc o * sc o)) :=
  let n := #(l_n s) in let dt := l_dt s in let sigma := l_sigma s in
  let z := s0 o in let q := ssqrt o in
  match l_n s with
  | 0 => Ok ((z, z, z), (z, z, z))
  | _ =>
    match l_order s with
    | 0 => Ok ((sigma / q n, z, z), (sigma / q n, z, z))
    | 1 =>
        let e := if 1 <? l_n s
                 then (sigma * q (#2 * (#2 * n - #1) / (n * (n + #1))),
                       sigma * q (#12 / (n * (n * n - #1) * dt * dt)), z)
                 else (z, z, z) in
        if l_n s =? 1 then Err ZeroDivisionError else
        Ok (e, (sigma * q (#2 * (#2 * n - #1) / (n * (n + #1))),
                sigma / dt * q (#12 / (n * (n * n - #1))), z))
    | _ =>
        let dt2 := dt * dt in
        let e := if 3 <=? l_n s
                 then (sigma * q (#3 * (#3 * n * n - #3 * n + #2) / (n * (n + #1) * (n + #2))),
                       sigma * q (#12 * (#16 * n * n - #30 * n + #11) / (n * (n * n - #1) * (n * n - #4) * dt2)),
                       sigma * q (#720 / (n * (n * n - #1) * (n * n - #4) * dt2 * dt2)))
                 else (z, z, z) in
        if (l_n s =? 1) || (l_n s =? 2) then Err ZeroDivisionError else
        Ok (e, (sigma * q (#3 * (#3 * n * n - #3 * n + #2) / (n * (n + #1) * (n + #2))),
                sigma / dt * q (#12 * (#16 * n * n - #30 * n + #11) / (n * (n * n - #1) * (n * n - #4))),
                sigma / dt2 * q (#720 / (n * (n * n - #1) * (n * n - #4)))))
    end
  end.

(** ** FadingMemoryFilter (memory/fading_memory.py 24-194) *)
Record fmf := mkFMF {
  m_dt : sc o; m_order : nat; m_beta : sc o;
  m_x0 : sc o; m_x1 : sc o; m_x2 : sc o;
  m_P : list (sc o); m_e : list (sc o) }.

(** __init__ (102-148), scalar x0 or a vector of three entries (unused ones ignored). *)
Definition fmf_init (x0 x1 x2 : sc o) (dt : sc o) (neg : bool) (order : nat) (b : sc o) : res fmf :=
  if neg || (2 <? order) then Err ValueError else
  let (P, e) := match order with
    | 0 => ([(#1 - b) / (#1 + b)], [dt * b / (#1 - b)])
    | 1 =>
        ([(#1 - b) * (#1 + #4 * b + #5 * b ** 2) / (#1 + b) ** 3;
          #2 * (#1 - b) ** 3 / (#1 + b) ** 3],
         [#2 * dt * #2 * (b / (#1 - b)) ** 2;
          dt * ((#1 + #3 * b) / (#1 - b))])
    | _ =>
        ([(#1 - b) * ((#1 + #6 * b + #16 * b ** 2 + #24 * b ** 3 + #19 * b ** 4) / (#1 + b) ** 5);
          (#1 - b) ** 3 * ((#13 + #50 * b + #49 * b ** 2) / (#2 * (#1 + b) ** 5 * dt ** 2));
          #6 * (#1 - b) ** 5 / ((#1 + b) ** 5 * dt ** 4)],
         [#6 * dt ** 3 * (b / (#1 - b)) ** 3;
          dt ** 2 * (#2 + #5 * b + #11 * b ** 2) / (#1 - b) ** 2;
          #6 * dt * (#1 + #2 * b) / (#1 - b)])
    end in
  Ok (mkFMF dt order b x0 x1 x2 P e).

(** update (162-194). *)
Definition fmf_update (z : sc o) (s : fmf) : fmf :=
  let b := m_beta s in let dt := m_dt s in
  let x := m_x0 s in let dx := m_x1 s in let ddx := m_x2 s in
  match m_order s with
  | 0 =>
      let G := #1 - b in
      mkFMF dt 0 b (x + G * (z - x)) dx ddx (m_P s) (m_e s)
  | 1 =>
      let G := #1 - b ** 2 in
      let H := (#1 - b) ** 2 in
      let dxdt := dx * dt in
      let residual := z - (x + dxdt) in
      mkFMF dt 1 b (x + dxdt + G * residual) (dx + H / dt * residual) ddx (m_P s) (m_e s)
  | order =>
      let G := #1 - b ** 3 in
      let H := three_halves o * (#1 + b) * (#1 - b) ** 2 in
      let K := half o * (#1 - b) ** 3 in
      let dxdt := dx * dt in
      let T2 := dt ** 2 in
      let residual := z - (x + dxdt + half o * ddx * T2) in
      mkFMF dt order b (x + dxdt + half o * ddx * T2 + G * residual)
        (dx + ddx * dt + H / dt * residual) (ddx + #2 * K / dt ** 2 * residual) (m_P s) (m_e s)
  end.

End LSQ.
Arguments mkLSQ {o}. Arguments l_dt {o}. Arguments l_sigma {o}. Arguments l_order {o}. Arguments l_n {o}.
Arguments l_x0 {o}. Arguments l_x1 {o}. Arguments l_x2 {o}. Arguments l_K0 {o}. Arguments l_K1 {o}.
Arguments l_K2 {o}. Arguments l_y {o}.
Arguments lsq_reset {o}. Arguments lsq_init {o}. Arguments lsq_update {o}. Arguments lsq_errors {o}.
Arguments mkFMF {o}. Arguments m_dt {o}. Arguments m_order {o}. Arguments m_beta {o}. Arguments m_x0 {o}.
Arguments m_x1 {o}. Arguments m_x2 {o}. Arguments m_P {o}. Arguments m_e {o}.
Arguments fmf_init {o}. Arguments fmf_update {o}.
