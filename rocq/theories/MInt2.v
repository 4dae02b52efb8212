(** * The int expressions of src/helmholtzhodge.c and of the polar isometries of src/isometries.c

    As in MInt.v.  The accesses of the banded structures are expanded; the arithmetic on the finished
    structures (banded_qrfact, gbmv, tbsv, tbmv, bqmv, brsv) is not. *)
From Coq Require Import ZArith List Bool String.
From Verif Require Import Base MInt.
Import ListNotations.
Open Scope Z_scope.
Local Open Scope string_scope.
Local Notation n := (V "n").
Local Notation m := (V "m").
Local Notation l := (V "l").
Local Notation i := (V "i").
Local Notation NN := (V "N").
Local Notation MM := (V "M").

(** banded_source.c 160-167 calloc_triangular_banded(a, b), 140-149 calloc_banded(_, a, lo, up) *)
Definition c_calloc_tb (a b : iexp) : cmd := Use (a * (b + 1))%I.
Definition c_calloc_bd (a lo up : iexp) : cmd := Use (a * (lo + up + 1))%I.
(** banded_source.c 270-275 and 254-259: the entry (a, c) *)
Definition c_set_tb (b a c : iexp) : cmd := Use (a + (c + 1) * b)%I.
Definition c_set_bd (lo up a c : iexp) : cmd := Use (up + a + c * (lo + up))%I.

(** helmholtzhodge.c 4-20 *)
Definition c_sine_multiplication : cmd :=
  seq [ c_calloc_tb (n + 1 - m)%I 2%I;
        For "l" (K 0) Lt (n + 1 - m)%I 1 (seq [ Use ((l + 2 * m - 1) * (l + 2 * m))%I; Use ((2 * l + 2 * m - 1) * (2 * l + 2 * m + 1))%I; c_set_tb 2%I l l ]);
        For "l" (K 0) Lt (n - 1 - m)%I 1 (seq [ Use ((l + 1) * (l + 2))%I; Use ((2 * l + 2 * m + 1) * (2 * l + 2 * m + 3))%I; c_set_tb 2%I l (l + 2)%I ]) ].
(** 22-38 *)
Definition c_theta_derivative : cmd :=
  seq [ c_calloc_bd (n + 1 - m)%I 1%I 1%I;
        For "l" (K 1) Lt (n + 1 - m)%I 1 (seq [ Use (l * (l + 2 * m))%I; Use ((2 * l + 2 * m - 1) * (2 * l + 2 * m + 1))%I; Use (l + m - 1)%I; c_set_bd 1%I 1%I l (l - 1)%I ]);
        For "l" (K 0) Lt (n - m)%I 1 (seq [ Use ((l + 1) * (l + 2 * m + 1))%I; Use ((2 * l + 2 * m + 1) * (2 * l + 2 * m + 3))%I; Use (0 - (l + m + 2))%I; c_set_bd 1%I 1%I l (l + 1)%I ]) ].
(** 50-62 ft_plan_sph_gradient *)
Definition c_plan_sph_gradient : cmd := For "m" (K 1) Le n 1 (seq [ Use (m - 1)%I; c_theta_derivative; Use (m - 1)%I; c_sine_multiplication ]).
(** 105-125 *)
Definition c_hh_conversion : cmd :=
  seq [ Use (2 * n + 4 - 2 * m)%I; c_calloc_bd (2 * n + 2 - 2 * m)%I 2%I 2%I;
        For "l" (K 0) Lt (n + 1 - m)%I 1
          (seq [ c_set_bd 2%I 2%I (2 * l + 1)%I (2 * l)%I; c_set_bd 2%I 2%I (2 * l)%I (2 * l + 1)%I; Use ((l + 1) * (l + 2 * m + 1))%I; Use ((2 * l + 2 * m + 1) * (2 * l + 2 * m + 3))%I; Use (m + l)%I;
                 c_set_bd 2%I 2%I (2 * l + 3)%I (2 * l + 1)%I; c_set_bd 2%I 2%I (2 * l + 2)%I (2 * l)%I ]);
        For "l" (K 0) Lt (n - m)%I 1
          (seq [ Use ((l + 1) * (l + 2 * m + 1))%I; Use ((2 * l + 2 * m + 1) * (2 * l + 2 * m + 3))%I; Use (0 - (m + l + 2))%I;
                 c_set_bd 2%I 2%I (2 * l)%I (2 * l + 2)%I; c_set_bd 2%I 2%I (2 * l + 1)%I (2 * l + 3)%I ]) ].
(** 127-142 ft_plan_sph_helmholtzhodge *)
Definition c_plan_sph_helmholtzhodge : cmd :=
  seq [ For "m" (K 1) Le n 1 (seq [ Use (m - 1)%I; c_sine_multiplication; c_hh_conversion; Use (m - 1)%I ]); Use (2 * n + 2)%I ].

(** the offsets of the two columns of order m *)
Definition scol : iexp := (NN * (2 * m - 1))%I.
Definition ccol : iexp := (NN * (2 * m))%I.
(** 64-86 ft_execute_sph_gradient *)
Definition c_execute_sph_gradient : cmd :=
  seq [ For "l" (K 0) Lt (NN - 1)%I 1 (Use (l + 1)%I); Use (NN - 1)%I;
        For "m" (K 1) Le (MM / 2)%I 1 (uses [ (m - 1)%I; scol; scol; (m - 1)%I; ccol; ccol; (m - 1)%I; scol; (m - 1)%I; ccol ]);
        For "m" (K 1) Le (MM / 2)%I 1
          (seq [ For "l" (K 0) Lt (NN + 1 - m)%I 1 (uses [ (l + scol)%I; (0 - m)%I; (l + ccol)%I; (l + ccol)%I; (l + scol)%I ]); uses [ (m - 1)%I; scol; (m - 1)%I; ccol ] ]) ].
(** 88-92 ft_execute_sph_curl *)
Definition c_execute_sph_curl : cmd := seq [ c_execute_sph_gradient; For "i" (K 0) Lt (NN * MM)%I 1 (Use i) ].
(** 144-182: readin1 and writeout1 have (a, b) = (scol, ccol), readin2 and writeout2 the other way round *)
Definition c_hh_readin (a b : iexp) : cmd :=
  seq [ uses [ a; (2 * NN + 1 - 2 * m)%I; (NN - m + b)%I ];
        For "l" (K 0) Lt (NN - m)%I 1 (uses [ (2 * l + 1)%I; (l + b)%I; (2 * l + 2)%I; (l + 1 + a)%I ]);
        uses [ (2 * NN + 2 - 2 * m)%I; (2 * NN + 3 - 2 * m)%I ] ].
Definition c_hh_writeout (a b : iexp) : cmd :=
  seq [ uses [ a; b; (NN - m)%I ];
        For "l" (K 0) Lt (NN - 1 - m)%I 1 (uses [ (l + 1 + a)%I; (2 * l + 2)%I; (l + b)%I; (2 * l + 1)%I ]);
        uses [ (NN - 1 - m + b)%I; (2 * NN - 2 * m - 1)%I ] ].
(** 187-211 ft_execute_sph_helmholtzhodge *)
Definition c_execute_sph_helmholtzhodge : cmd :=
  seq [ For "l" (K 0) Lt (NN - 1)%I 1 (Use (l + 1)%I);
        For "m" (K 1) Le (MM / 2)%I 1
          (seq [ uses [ (m - 1)%I; scol; (m - 1)%I; ccol; (m - 1)%I; scol; (m - 1)%I; ccol ];
                 c_hh_readin scol ccol; c_hh_writeout scol ccol; c_hh_readin ccol scol; c_hh_writeout ccol scol ]) ].

(** isometries.c 130-146 ft_execute_sph_polar_rotation *)
Definition c_polar_rotation : cmd :=
  For "m" (K 1) Le (MM / 2)%I 1 (For "i" (K 0) Lt (NN - m)%I 1 (uses [ (i + scol)%I; (i + ccol)%I; (i + scol)%I; (i + ccol)%I ])).
(** isometries.c 148-156 ft_execute_sph_polar_reflection *)
Definition c_polar_reflection : cmd :=
  seq [ For "i" (K 1) Lt NN 2 (Use i);
        For "m" (K 1) Le (MM / 2)%I 1 (For "i" (K 1) Lt (NN - m)%I 2 (uses [ (i + scol)%I; (i + scol)%I; (i + ccol)%I; (i + ccol)%I ])) ].
