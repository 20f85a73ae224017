(** Specification: rows of a grid, trapezoids as sets of points, and the area of
    the part of a trapezoid below a horizontal line; independent of the program. *)
Require Import List ZArith.
From Verif Require Import Scalar M_Events S_Geo M_MonoPoly.
Import ListNotations.
Local Open Scope list_scope.
Local Open Scope Qc_scope.

(** The band from [lo] to [hi] is cut into [n] rows of equal height; [row .. j]
    is the lower border of row [j]. *)
Definition num (n : nat) : Qc := Q2Qc (inject_Z (Z.of_nat n)).
Definition row (lo hi : Qc) (n j : nat) : Qc := lo + num j * ((hi - lo) / num n).
(** [y] is in row [j]: rows contain their lower border, the last one also the
    upper border of the band. *)
Definition in_row (lo hi : Qc) (n j : nat) (y : Qc) : Prop :=
  (j < n)%nat /\ row lo hi n j <= y /\ (y < row lo hi n (S j) \/ (S j = n /\ y = hi)).

(** The point at fraction [t] between [a] and [b]. *)
Definition mix (a b t : Qc) : Qc := a + t * (b - a).
(** [p] is in the closed trapezoid [z]. *)
Definition in_trapz (z : trapz) (p : pt) : Prop :=
  exists t, 0 <= t /\ t <= 1 /\ cx p = mix (t_x (z_left z)) (t_x (z_right z)) t /\
    mix (t_bot (z_left z)) (t_bot (z_right z)) t <= cy p /\
    cy p <= mix (t_top (z_left z)) (t_top (z_right z)) t.
Definition scanned (zs : list trapz) (p : pt) : Prop := exists z, In z zs /\ in_trapz z p.

(** The scanned part has no height, or is on one side of the band. *)
Definition misses_band (zs : list trapz) (lo hi : Qc) : Prop :=
  (forall p q, scanned zs p -> scanned zs q -> cy p = cy q) \/
  (forall p, scanned zs p -> cy p <= lo) \/
  (forall p, scanned zs p -> hi <= cy p).

(** The rows from [j] to [k] are exactly those needed: no
    scanned point is in another row of the band, and the first and the last of
    them, borders included, are reached by scanned points. *)
Definition rows_of (zs : list trapz) (lo hi : Qc) (n j k : nat) : Prop :=
  (j <= k)%nat /\ (k < n)%nat /\
  (forall p i, scanned zs p -> in_row lo hi n i (cy p) -> (j <= i)%nat /\ (i <= k)%nat) /\
  (exists p, scanned zs p /\ cy p <= row lo hi n (S j)) /\
  (exists p, scanned zs p /\ row lo hi n k <= cy p).

(** Over an interval of length [w], a straight line runs from height [u] to
    height [v]; the area of the part of the plane below the line and above 0.
    Where the line changes sign, this is a right-angled triangle. *)
Definition area_above_0 (w u v : Qc) : Qc :=
  match u ?= 0, v ?= 0 with
  | Gt, Lt => w * (u * u) / ((1 + 1) * (u - v))
  | Lt, Gt => w * (v * v) / ((1 + 1) * (v - u))
  | Lt, _ | _, Lt => 0
  | _, _ => w * (u + v) / (1 + 1)
  end.
(** The area of the part of the trapezoid below the horizontal line at [c]: what
    is between the bottom side and the line, without what is between the top
    side and the line. *)
Definition area_below (z : trapz) (c : Qc) : Qc :=
  let w := t_x (z_right z) - t_x (z_left z) in
  area_above_0 w (c - t_bot (z_left z)) (c - t_bot (z_right z)) -
  area_above_0 w (c - t_top (z_left z)) (c - t_top (z_right z)).
(** The area of its part between the horizontal lines at [c] and [d]. *)
Definition area_between (z : trapz) (c d : Qc) : Qc := area_below z d - area_below z c.
