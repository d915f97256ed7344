(** Model of the hard-coded spherical tables of
    /repo/moving_mesh_transport/solver_classes/GMAT_sphere.py, produced by tools/gen_gmat.py from its text.
    Decimal literals such as 0.16666666666666666 are read as the fraction 1/q they are the float64 printing
    of: [flt m e q] stands for the literal m*10^-e and means 1/q; [literals] lists them all. *)
From Verif Require Import Py.

Definition flt (m e q : Z) : R := 1 / IZR q.
(** every decimal literal of the file: mantissa, decimal exponent, q *)
Definition literals : list (Z * Z * Z) :=
  [(16666666666666666, 17, 6); (1, 1, 10); (3333333333333333, 17, 30); (14285714285714285, 18, 70); (15873015873015873, 19, 630); (7215007215007215, 19, 1386); (3885003885003885, 19, 2574); (6993006993006993, 19, 1430); (15082956259426848, 20, 6630); (111000111000111, 19, 90090); (10319917440660474, 20, 9690); (7371369600471768, 20, 13566); (6666666666666667, 17, 15)]%Z.

(** GMAT_sphere.py 8-512; falling through every branch returns None. *)
Definition GMatrix (i j : nat) (a b ap bp : R) : option R :=
  match i, j with
  | 0%nat, 0%nat => Some (((- (flt 16666666666666666 17 6)) * ((((a ^ 2) + (a * b)) + (b ^ 2)) * (ap - bp))) / (a - b))  (* line 12 *)
  | 0%nat, 1%nat => Some (((a + b) * (ap - bp)) / (6 * (sqrt 2)))  (* line 16 *)
  | 0%nat, 2%nat => Some (((((a ^ 2) + ((3 * a) * b)) + (b ^ 2)) * (ap - bp)) / ((15 * (sqrt 2)) * (a - b)))  (* line 20 *)
  | 0%nat, 3%nat => Some (((- (flt 1 1 10)) * ((a + b) * (ap - bp))) / (sqrt 2))  (* line 24 *)
  | 0%nat, 4%nat => Some (((((5 * (a ^ 2)) - ((3 * a) * b)) + (5 * (b ^ 2))) * (ap - bp)) / ((105 * (sqrt 2)) * (a - b)))  (* line 28 *)
  | 0%nat, 5%nat => Some (((a + b) * ((- ap) + bp)) / (42 * (sqrt 2)))  (* line 32 *)
  | 0%nat, 6%nat => Some (((((5 * (a ^ 2)) - (a * b)) + (5 * (b ^ 2))) * (ap - bp)) / ((315 * (sqrt 2)) * (a - b)))  (* line 36 *)
  | 0%nat, 7%nat => Some (((a + b) * ((- ap) + bp)) / (90 * (sqrt 2)))  (* line 40 *)
  | 0%nat, 8%nat => Some (((((29 * (a ^ 2)) - ((3 * a) * b)) + (29 * (b ^ 2))) * (ap - bp)) / ((3465 * (sqrt 2)) * (a - b)))  (* line 44 *)
  | 0%nat, 9%nat => Some (((a + b) * ((- ap) + bp)) / (154 * (sqrt 2)))  (* line 48 *)
  | 0%nat, 10%nat => Some (((((47 * (a ^ 2)) - ((3 * a) * b)) + (47 * (b ^ 2))) * (ap - bp)) / ((9009 * (sqrt 2)) * (a - b)))  (* line 52 *)
  | 1%nat, 0%nat => Some ((((((4 * a) * b) * (ap + bp)) + ((a ^ 2) * ((7 * ap) + bp))) + ((b ^ 2) * (ap + (7 * bp)))) / ((6 * (sqrt 2)) * (a - b)))  (* line 58 *)
  | 1%nat, 1%nat => Some ((((- ((b ^ 2) * (ap - (11 * bp)))) + ((a ^ 2) * (((- 11) * ap) + bp))) + (((3 * a) * b) * ((- ap) + bp))) / (15 * (a - b)))  (* line 62 *)
  | 1%nat, 2%nat => Some (((- (flt 3333333333333333 17 30)) * (((((12 * a) * b) * (ap + bp)) + ((b ^ 2) * ((7 * ap) + bp))) + ((a ^ 2) * (ap + (7 * bp))))) / (a - b))  (* line 66 *)
  | 1%nat, 3%nat => Some ((((((9 * a) * b) * (ap - bp)) + ((a ^ 2) * ((13 * ap) + bp))) - ((b ^ 2) * (ap + (13 * bp)))) / (35 * (a - b)))  (* line 70 *)
  | 1%nat, 4%nat => Some (((((b ^ 2) * ((19 * ap) - (59 * bp))) + (((12 * a) * b) * (ap + bp))) + ((a ^ 2) * (((- 59) * ap) + (19 * bp)))) / (210 * (a - b)))  (* line 74 *)
  | 1%nat, 5%nat => Some (((((b ^ 2) * (ap - (3 * bp))) + ((a ^ 2) * ((3 * ap) - bp))) + ((a * b) * ((- ap) + bp))) / (21 * (a - b)))  (* line 78 *)
  | 1%nat, 6%nat => Some (((((b ^ 2) * ((13 * ap) - (53 * bp))) + (((4 * a) * b) * (ap + bp))) + ((a ^ 2) * (((- 53) * ap) + (13 * bp)))) / (630 * (a - b)))  (* line 82 *)
  | 1%nat, 7%nat => Some (((((b ^ 2) * ((7 * ap) - (29 * bp))) + ((a ^ 2) * ((29 * ap) - (7 * bp)))) + (((3 * a) * b) * ((- ap) + bp))) / (495 * (a - b)))  (* line 86 *)
  | 1%nat, 8%nat => Some (((((b ^ 2) * ((67 * ap) - (299 * bp))) + (((12 * a) * b) * (ap + bp))) + ((a ^ 2) * (((- 299) * ap) + (67 * bp)))) / (6930 * (a - b)))  (* line 90 *)
  | 1%nat, 9%nat => Some (((((b ^ 2) * ((37 * ap) - (167 * bp))) + ((a ^ 2) * ((167 * ap) - (37 * bp)))) + (((9 * a) * b) * ((- ap) + bp))) / (5005 * (a - b)))  (* line 94 *)
  | 1%nat, 10%nat => Some (((((b ^ 2) * ((103 * ap) - (479 * bp))) + (((12 * a) * b) * (ap + bp))) + ((a ^ 2) * (((- 479) * ap) + (103 * bp)))) / (18018 * (a - b)))  (* line 98 *)
  | 2%nat, 0%nat => Some (((((a * b) * ((- ap) + bp)) - ((a ^ 2) * ((7 * ap) + bp))) + ((b ^ 2) * (ap + (7 * bp)))) / ((3 * (sqrt 2)) * (a - b)))  (* line 104 *)
  | 2%nat, 1%nat => Some ((((((16 * a) * b) * (ap + bp)) + ((a ^ 2) * ((57 * ap) + (7 * bp)))) + ((b ^ 2) * ((7 * ap) + (57 * bp)))) / (30 * (a - b)))  (* line 108 *)
  | 2%nat, 2%nat => Some ((((((11 * a) * b) * ((- ap) + bp)) + ((a ^ 2) * (((- 75) * ap) + (19 * bp)))) + ((b ^ 2) * (((- 19) * ap) + (75 * bp)))) / (105 * (a - b)))  (* line 112 *)
  | 2%nat, 3%nat => Some (((- (flt 14285714285714285 18 70)) * (((((48 * a) * b) * (ap + bp)) + ((a ^ 2) * ((35 * ap) + (29 * bp)))) + ((b ^ 2) * ((29 * ap) + (35 * bp))))) / (a - b))  (* line 116 *)
  | 2%nat, 4%nat => Some ((((((119 * a) * b) * (ap - bp)) + ((a ^ 2) * ((281 * ap) + (31 * bp)))) - ((b ^ 2) * ((31 * ap) + (281 * bp)))) / (315 * (a - b)))  (* line 120 *)
  | 2%nat, 5%nat => Some (((((b ^ 2) * ((15 * ap) - (79 * bp))) + (((16 * a) * b) * (ap + bp))) + ((a ^ 2) * (((- 79) * ap) + (15 * bp)))) / (126 * (a - b)))  (* line 124 *)
  | 2%nat, 6%nat => Some (((((b ^ 2) * ((221 * ap) - (1189 * bp))) + ((a ^ 2) * ((1189 * ap) - (221 * bp)))) + (((299 * a) * b) * ((- ap) + bp))) / (3465 * (a - b)))  (* line 128 *)
  | 2%nat, 7%nat => Some (((((b ^ 2) * ((23 * ap) - (215 * bp))) + (((16 * a) * b) * (ap + bp))) + ((a ^ 2) * (((- 215) * ap) + (23 * bp)))) / (990 * (a - b)))  (* line 132 *)
  | 2%nat, 8%nat => Some (((((b ^ 2) * ((711 * ap) - (7055 * bp))) + ((a ^ 2) * ((7055 * ap) - (711 * bp)))) + (((551 * a) * b) * ((- ap) + bp))) / (45045 * (a - b)))  (* line 136 *)
  | 2%nat, 9%nat => Some (((((b ^ 2) * ((101 * ap) - (1189 * bp))) + (((48 * a) * b) * (ap + bp))) + ((a ^ 2) * (((- 1189) * ap) + (101 * bp)))) / (10010 * (a - b)))  (* line 140 *)
  | 2%nat, 10%nat => Some (((((b ^ 2) * ((69 * ap) - (845 * bp))) + ((a ^ 2) * ((845 * ap) - (69 * bp)))) + (((35 * a) * b) * ((- ap) + bp))) / (9009 * (a - b)))  (* line 144 *)
  | 3%nat, 0%nat => Some ((((- ((b ^ 2) * (ap - (25 * bp)))) + ((a ^ 2) * ((25 * ap) - bp))) - (((4 * a) * b) * (ap + bp))) / ((10 * (sqrt 2)) * (a - b)))  (* line 150 *)
  | 3%nat, 1%nat => Some (((((a * b) * ((- ap) + bp)) - ((a ^ 2) * ((13 * ap) + bp))) + ((b ^ 2) * (ap + (13 * bp)))) / (5 * (a - b)))  (* line 154 *)
  | 3%nat, 2%nat => Some ((((((68 * a) * b) * (ap + bp)) + ((a ^ 2) * ((155 * ap) + (29 * bp)))) + ((b ^ 2) * ((29 * ap) + (155 * bp)))) / (70 * (a - b)))  (* line 158 *)
  | 3%nat, 3%nat => Some ((((((47 * a) * b) * ((- ap) + bp)) + ((a ^ 2) * (((- 215) * ap) + (53 * bp)))) + ((b ^ 2) * (((- 53) * ap) + (215 * bp)))) / (315 * (a - b)))  (* line 162 *)
  | 3%nat, 4%nat => Some (((- (flt 15873015873015873 19 630)) * (((((636 * a) * b) * (ap + bp)) + ((a ^ 2) * ((617 * ap) + (367 * bp)))) + ((b ^ 2) * ((367 * ap) + (617 * bp))))) / (a - b))  (* line 166 *)
  | 3%nat, 5%nat => Some ((((((351 * a) * b) * (ap - bp)) + ((a ^ 2) * ((1007 * ap) + (115 * bp)))) - ((b ^ 2) * ((115 * ap) + (1007 * bp)))) / (693 * (a - b)))  (* line 170 *)
  | 3%nat, 6%nat => Some (((((b ^ 2) * ((349 * ap) - (2341 * bp))) + (((452 * a) * b) * (ap + bp))) + ((a ^ 2) * (((- 2341) * ap) + (349 * bp)))) / (2310 * (a - b)))  (* line 174 *)
  | 3%nat, 7%nat => Some (((((b ^ 2) * ((527 * ap) - (3725 * bp))) + ((a ^ 2) * ((3725 * ap) - (527 * bp)))) + (((807 * a) * b) * ((- ap) + bp))) / (6435 * (a - b)))  (* line 178 *)
  | 3%nat, 8%nat => Some (((((b ^ 2) * ((2447 * ap) - (34295 * bp))) + (((2364 * a) * b) * (ap + bp))) + ((a ^ 2) * (((- 34295) * ap) + (2447 * bp)))) / (90090 * (a - b)))  (* line 182 *)
  | 3%nat, 9%nat => Some (((((b ^ 2) * ((275 * ap) - (4217 * bp))) + ((a ^ 2) * ((4217 * ap) - (275 * bp)))) + (((283 * a) * b) * ((- ap) + bp))) / (15015 * (a - b)))  (* line 186 *)
  | 3%nat, 10%nat => Some (((((b ^ 2) * ((1003 * ap) - (19555 * bp))) + (((732 * a) * b) * (ap + bp))) + ((a ^ 2) * (((- 19555) * ap) + (1003 * bp)))) / (90090 * (a - b)))  (* line 190 *)
  | 4%nat, 0%nat => Some ((((((29 * a) * b) * (ap - bp)) + ((a ^ 2) * (((- 235) * ap) + (11 * bp)))) + ((b ^ 2) * (((- 11) * ap) + (235 * bp)))) / ((105 * (sqrt 2)) * (a - b)))  (* line 196 *)
  | 4%nat, 1%nat => Some (((((a ^ 2) * ((531 * ap) - (19 * bp))) - (((64 * a) * b) * (ap + bp))) + ((b ^ 2) * (((- 19) * ap) + (531 * bp)))) / (210 * (a - b)))  (* line 200 *)
  | 4%nat, 2%nat => Some ((((((43 * a) * b) * ((- ap) + bp)) - ((a ^ 2) * ((321 * ap) + (31 * bp)))) + ((b ^ 2) * ((31 * ap) + (321 * bp)))) / (105 * (a - b)))  (* line 204 *)
  | 4%nat, 3%nat => Some ((((((832 * a) * b) * (ap + bp)) + ((a ^ 2) * ((1681 * ap) + (367 * bp)))) + ((b ^ 2) * ((367 * ap) + (1681 * bp)))) / (630 * (a - b)))  (* line 208 *)
  | 4%nat, 4%nat => Some ((((((547 * a) * b) * ((- ap) + bp)) + ((a ^ 2) * (((- 2339) * ap) + (579 * bp)))) + ((b ^ 2) * (((- 579) * ap) + (2339 * bp)))) / (3465 * (a - b)))  (* line 212 *)
  | 4%nat, 5%nat => Some (((- (flt 7215007215007215 19 1386)) * (((((1856 * a) * b) * (ap + bp)) + ((a ^ 2) * ((2033 * ap) + (1039 * bp)))) + ((b ^ 2) * ((1039 * ap) + (2033 * bp))))) / (a - b))  (* line 216 *)
  | 4%nat, 6%nat => Some ((((((4103 * a) * b) * (ap - bp)) + ((a ^ 2) * ((13061 * ap) + (1499 * bp)))) - ((b ^ 2) * ((1499 * ap) + (13061 * bp)))) / (6435 * (a - b)))  (* line 220 *)
  | 4%nat, 7%nat => Some (((((b ^ 2) * ((2367 * ap) - (18239 * bp))) + (((3392 * a) * b) * (ap + bp))) + ((a ^ 2) * (((- 18239) * ap) + (2367 * bp)))) / (12870 * (a - b)))  (* line 224 *)
  | 4%nat, 8%nat => Some (((((b ^ 2) * ((647 * ap) - (5351 * bp))) + ((a ^ 2) * ((5351 * ap) - (647 * bp)))) - (((1057 * a) * b) * (ap - bp))) / (6435 * (a - b)))  (* line 228 *)
  | 4%nat, 9%nat => Some (((((b ^ 2) * ((947 * ap) - (16819 * bp))) + (((1088 * a) * b) * (ap + bp))) + ((a ^ 2) * (((- 16819) * ap) + (947 * bp)))) / (30030 * (a - b)))  (* line 232 *)
  | 4%nat, 10%nat => Some (((((b ^ 2) * ((16211 * ap) - (321395 * bp))) + ((a ^ 2) * ((321395 * ap) - (16211 * bp)))) - (((19519 * a) * b) * (ap - bp))) / (765765 * (a - b)))  (* line 236 *)
  | 5%nat, 0%nat => Some ((((- ((b ^ 2) * (ap - (89 * bp)))) + ((a ^ 2) * ((89 * ap) - bp))) - (((4 * a) * b) * (ap + bp))) / ((42 * (sqrt 2)) * (a - b)))  (* line 242 *)
  | 5%nat, 1%nat => Some ((((((13 * a) * b) * (ap - bp)) + ((a ^ 2) * (((- 143) * ap) + (5 * bp)))) + ((b ^ 2) * (((- 5) * ap) + (143 * bp)))) / (63 * (a - b)))  (* line 246 *)
  | 5%nat, 2%nat => Some (((((a ^ 2) * ((359 * ap) - (15 * bp))) - (((44 * a) * b) * (ap + bp))) + ((b ^ 2) * (((- 15) * ap) + (359 * bp)))) / (126 * (a - b)))  (* line 250 *)
  | 5%nat, 3%nat => Some ((((((35 * a) * b) * ((- ap) + bp)) - ((a ^ 2) * ((227 * ap) + (23 * bp)))) + ((b ^ 2) * ((23 * ap) + (227 * bp)))) / (63 * (a - b)))  (* line 254 *)
  | 5%nat, 4%nat => Some ((((((2300 * a) * b) * (ap + bp)) + ((a ^ 2) * ((4361 * ap) + (1039 * bp)))) + ((b ^ 2) * ((1039 * ap) + (4361 * bp)))) / (1386 * (a - b)))  (* line 258 *)
  | 5%nat, 5%nat => Some (((((((- 1453) * a) * b) * (ap - bp)) + ((a ^ 2) * (((- 6053) * ap) + (1503 * bp)))) + ((b ^ 2) * (((- 1503) * ap) + (6053 * bp)))) / (9009 * (a - b)))  (* line 262 *)
  | 5%nat, 6%nat => Some (((- (flt 3885003885003885 19 2574)) * (((((4300 * a) * b) * (ap + bp)) + ((a ^ 2) * ((5041 * ap) + (2359 * bp)))) + ((b ^ 2) * ((2359 * ap) + (5041 * bp))))) / (a - b))  (* line 266 *)
  | 5%nat, 7%nat => Some ((((((1651 * a) * b) * (ap - bp)) + ((a ^ 2) * ((5607 * ap) + (643 * bp)))) - ((b ^ 2) * ((643 * ap) + (5607 * bp)))) / (2145 * (a - b)))  (* line 270 *)
  | 5%nat, 8%nat => Some (((((b ^ 2) * ((931 * ap) - (7851 * bp))) + (((1420 * a) * b) * (ap + bp))) + ((a ^ 2) * (((- 7851) * ap) + (931 * bp)))) / (4290 * (a - b)))  (* line 274 *)
  | 5%nat, 9%nat => Some (((((5 * (b ^ 2)) * ((6095 * ap) - (55837 * bp))) + ((5 * (a ^ 2)) * ((55837 * ap) - (6095 * bp)))) - (((51787 * a) * b) * (ap - bp))) / (255255 * (a - b)))  (* line 278 *)
  | 5%nat, 10%nat => Some (((((b ^ 2) * ((335 * ap) - (6951 * bp))) + (((428 * a) * b) * (ap + bp))) + ((a ^ 2) * (((- 6951) * ap) + (335 * bp)))) / (9282 * (a - b)))  (* line 282 *)
  | 6%nat, 0%nat => Some ((((((23 * a) * b) * (ap - bp)) + ((a ^ 2) * (((- 655) * ap) + (7 * bp)))) + ((b ^ 2) * (((- 7) * ap) + (655 * bp)))) / ((315 * (sqrt 2)) * (a - b)))  (* line 288 *)
  | 6%nat, 1%nat => Some (((((a ^ 2) * ((1357 * ap) - (13 * bp))) - (((48 * a) * b) * (ap + bp))) + ((b ^ 2) * (((- 13) * ap) + (1357 * bp)))) / (630 * (a - b)))  (* line 292 *)
  | 6%nat, 2%nat => Some ((((((789 * a) * b) * (ap - bp)) + ((a ^ 2) * (((- 8507) * ap) + (323 * bp)))) + ((b ^ 2) * (((- 323) * ap) + (8507 * bp)))) / (3465 * (a - b)))  (* line 296 *)
  | 6%nat, 3%nat => Some (((((a ^ 2) * ((7453 * ap) - (349 * bp))) - (((944 * a) * b) * (ap + bp))) + ((b ^ 2) * (((- 349) * ap) + (7453 * bp)))) / (2310 * (a - b)))  (* line 300 *)
  | 6%nat, 4%nat => Some (((((((- 2403) * a) * b) * (ap - bp)) - ((a ^ 2) * ((14461 * ap) + (1499 * bp)))) + ((b ^ 2) * ((1499 * ap) + (14461 * bp)))) / (3465 * (a - b)))  (* line 304 *)
  | 6%nat, 5%nat => Some ((((((5136 * a) * b) * (ap + bp)) + ((a ^ 2) * ((9353 * ap) + (2359 * bp)))) + ((b ^ 2) * ((2359 * ap) + (9353 * bp)))) / (2574 * (a - b)))  (* line 308 *)
  | 6%nat, 6%nat => Some (((((((- 1049) * a) * b) * (ap - bp)) + ((a ^ 2) * (((- 4313) * ap) + (1073 * bp)))) + ((b ^ 2) * (((- 1073) * ap) + (4313 * bp)))) / (6435 * (a - b)))  (* line 312 *)
  | 6%nat, 7%nat => Some (((- (flt 6993006993006993 19 1430)) * (((((2864 * a) * b) * (ap + bp)) + ((a ^ 2) * ((3507 * ap) + (1549 * bp)))) + ((b ^ 2) * ((1549 * ap) + (3507 * bp))))) / (a - b))  (* line 316 *)
  | 6%nat, 8%nat => Some ((((((997 * a) * b) * (ap - bp)) + ((a ^ 2) * ((3539 * ap) + (405 * bp)))) - ((b ^ 2) * ((405 * ap) + (3539 * bp)))) / (1105 * (a - b)))  (* line 320 *)
  | 6%nat, 9%nat => Some (((((b ^ 2) * ((553 * ap) - (4969 * bp))) + (((880 * a) * b) * (ap + bp))) + ((a ^ 2) * (((- 4969) * ap) + (553 * bp)))) / (2210 * (a - b)))  (* line 324 *)
  | 6%nat, 10%nat => Some (((((b ^ 2) * ((20329 * ap) - (200145 * bp))) + ((a ^ 2) * ((200145 * ap) - (20329 * bp)))) - (((35471 * a) * b) * (ap - bp))) / (146965 * (a - b)))  (* line 328 *)
  | 7%nat, 0%nat => Some ((((- ((b ^ 2) * (ap - (185 * bp)))) + ((a ^ 2) * ((185 * ap) - bp))) - (((4 * a) * b) * (ap + bp))) / ((90 * (sqrt 2)) * (a - b)))  (* line 334 *)
  | 7%nat, 1%nat => Some ((((((29 * a) * b) * (ap - bp)) + ((a ^ 2) * (((- 1043) * ap) + (9 * bp)))) + ((b ^ 2) * (((- 9) * ap) + (1043 * bp)))) / (495 * (a - b)))  (* line 338 *)
  | 7%nat, 2%nat => Some (((((a ^ 2) * ((2255 * ap) - (23 * bp))) - (((76 * a) * b) * (ap + bp))) + ((b ^ 2) * (((- 23) * ap) + (2255 * bp)))) / (990 * (a - b)))  (* line 342 *)
  | 7%nat, 3%nat => Some ((((((1673 * a) * b) * (ap - bp)) + ((a ^ 2) * (((- 17275) * ap) + (713 * bp)))) + ((b ^ 2) * (((- 713) * ap) + (17275 * bp)))) / (6435 * (a - b)))  (* line 346 *)
  | 7%nat, 4%nat => Some (((((a ^ 2) * ((46663 * ap) - (2367 * bp))) - (((6076 * a) * b) * (ap + bp))) + ((b ^ 2) * (((- 2367) * ap) + (46663 * bp)))) / (12870 * (a - b)))  (* line 350 *)
  | 7%nat, 5%nat => Some (((((((- 1067) * a) * b) * (ap - bp)) - ((a ^ 2) * ((6119 * ap) + (643 * bp)))) + ((b ^ 2) * ((643 * ap) + (6119 * bp)))) / (1287 * (a - b)))  (* line 354 *)
  | 7%nat, 6%nat => Some ((((((3332 * a) * b) * (ap + bp)) + ((a ^ 2) * ((5899 * ap) + (1549 * bp)))) + ((b ^ 2) * ((1549 * ap) + (5899 * bp)))) / (1430 * (a - b)))  (* line 358 *)
  | 7%nat, 7%nat => Some (((((((- 5981) * a) * b) * (ap - bp)) + ((a ^ 2) * (((- 24405) * ap) + (6079 * bp)))) + ((b ^ 2) * (((- 6079) * ap) + (24405 * bp)))) / (36465 * (a - b)))  (* line 362 *)
  | 7%nat, 8%nat => Some (((- (flt 15082956259426848 20 6630)) * (((((15484 * a) * b) * (ap + bp)) + ((a ^ 2) * ((19545 * ap) + (8287 * bp)))) + ((b ^ 2) * ((8287 * ap) + (19545 * bp))))) / (a - b))  (* line 366 *)
  | 7%nat, 9%nat => Some ((((((5015 * a) * b) * (ap - bp)) + ((a ^ 2) * ((18383 * ap) + (2099 * bp)))) - ((b ^ 2) * ((2099 * ap) + (18383 * bp)))) / (4845 * (a - b)))  (* line 370 *)
  | 7%nat, 10%nat => Some (((((b ^ 2) * ((2747 * ap) - (25875 * bp))) + (((4508 * a) * b) * (ap + bp))) + ((a ^ 2) * (((- 25875) * ap) + (2747 * bp)))) / (9690 * (a - b)))  (* line 374 *)
  | 8%nat, 0%nat => Some ((((((25 * a) * b) * (ap - bp)) + ((a ^ 2) * (((- 1415) * ap) + (7 * bp)))) + ((b ^ 2) * (((- 7) * ap) + (1415 * bp)))) / ((693 * (sqrt 2)) * (a - b)))  (* line 380 *)
  | 8%nat, 1%nat => Some (((((a ^ 2) * ((14403 * ap) - (67 * bp))) - (((256 * a) * b) * (ap + bp))) + ((b ^ 2) * (((- 67) * ap) + (14403 * bp)))) / (6930 * (a - b)))  (* line 384 *)
  | 8%nat, 2%nat => Some ((((((2609 * a) * b) * (ap - bp)) + ((a ^ 2) * (((- 99045) * ap) + (869 * bp)))) + ((b ^ 2) * (((- 869) * ap) + (99045 * bp)))) / (45045 * (a - b)))  (* line 388 *)
  | 8%nat, 3%nat => Some (((- (flt 111000111000111 19 90090)) * ((((b ^ 2) * ((2447 * ap) - (219535 * bp))) + (((7424 * a) * b) * (ap + bp))) + ((a ^ 2) * (((- 219535) * ap) + (2447 * bp))))) / (a - b))  (* line 392 *)
  | 8%nat, 4%nat => Some ((((((4435 * a) * b) * (ap - bp)) + ((a ^ 2) * (((- 44053) * ap) + (1941 * bp)))) + ((b ^ 2) * (((- 1941) * ap) + (44053 * bp)))) / (15015 * (a - b)))  (* line 396 *)
  | 8%nat, 5%nat => Some (((((a ^ 2) * ((17315 * ap) - (931 * bp))) - (((2304 * a) * b) * (ap + bp))) + ((b ^ 2) * (((- 931) * ap) + (17315 * bp)))) / (4290 * (a - b)))  (* line 400 *)
  | 8%nat, 6%nat => Some ((((((689 * a) * b) * ((- ap) + bp)) - ((3 * (a ^ 2)) * ((1273 * ap) + (135 * bp)))) + ((3 * (b ^ 2)) * ((135 * ap) + (1273 * bp)))) / (715 * (a - b)))  (* line 404 *)
  | 8%nat, 7%nat => Some ((((((17664 * a) * b) * (ap + bp)) + ((a ^ 2) * ((30625 * ap) + (8287 * bp)))) + ((b ^ 2) * ((8287 * ap) + (30625 * bp)))) / (6630 * (a - b)))  (* line 408 *)
  | 8%nat, 8%nat => Some (((((((- 10371) * a) * b) * (ap - bp)) + ((a ^ 2) * (((- 42115) * ap) + (10499 * bp)))) + ((b ^ 2) * (((- 10499) * ap) + (42115 * bp)))) / (62985 * (a - b)))  (* line 412 *)
  | 8%nat, 9%nat => Some (((- (flt 10319917440660474 20 9690)) * (((((25856 * a) * b) * (ap + bp)) + ((a ^ 2) * ((33377 * ap) + (13727 * bp)))) + ((b ^ 2) * ((13727 * ap) + (33377 * bp))))) / (a - b))  (* line 416 *)
  | 8%nat, 10%nat => Some ((((((7923 * a) * b) * (ap - bp)) + ((a ^ 2) * ((29761 * ap) + (3391 * bp)))) - ((b ^ 2) * ((3391 * ap) + (29761 * bp)))) / (6783 * (a - b)))  (* line 420 *)
  | 9%nat, 0%nat => Some ((((- ((b ^ 2) * (ap - (313 * bp)))) + ((a ^ 2) * ((313 * ap) - bp))) - (((4 * a) * b) * (ap + bp))) / ((154 * (sqrt 2)) * (a - b)))  (* line 426 *)
  | 9%nat, 1%nat => Some ((((((151 * a) * b) * (ap - bp)) + ((a ^ 2) * (((- 10313) * ap) + (43 * bp)))) + ((b ^ 2) * (((- 43) * ap) + (10313 * bp)))) / (5005 * (a - b)))  (* line 430 *)
  | 9%nat, 2%nat => Some (((((a ^ 2) * ((21517 * ap) - (101 * bp))) - (((356 * a) * b) * (ap + bp))) + ((b ^ 2) * (((- 101) * ap) + (21517 * bp)))) / (10010 * (a - b)))  (* line 434 *)
  | 9%nat, 3%nat => Some ((((((917 * a) * b) * (ap - bp)) + ((a ^ 2) * (((- 34831) * ap) + (325 * bp)))) + ((b ^ 2) * (((- 325) * ap) + (34831 * bp)))) / (15015 * (a - b)))  (* line 438 *)
  | 9%nat, 4%nat => Some (((((a ^ 2) * ((78491 * ap) - (947 * bp))) - (((2700 * a) * b) * (ap + bp))) + ((b ^ 2) * (((- 947) * ap) + (78491 * bp)))) / (30030 * (a - b)))  (* line 442 *)
  | 9%nat, 5%nat => Some ((((((84741 * a) * b) * (ap - bp)) + ((a ^ 2) * (((- 815335) * ap) + (37789 * bp)))) + ((b ^ 2) * (((- 37789) * ap) + (815335 * bp)))) / (255255 * (a - b)))  (* line 446 *)
  | 9%nat, 6%nat => Some (((((a ^ 2) * ((9841 * ap) - (553 * bp))) - (((1332 * a) * b) * (ap + bp))) + ((b ^ 2) * (((- 553) * ap) + (9841 * bp)))) / (2210 * (a - b)))  (* line 450 *)
  | 9%nat, 7%nat => Some (((((((- 3639) * a) * b) * (ap - bp)) - ((a ^ 2) * ((19663 * ap) + (2099 * bp)))) + ((b ^ 2) * ((2099 * ap) + (19663 * bp)))) / (3315 * (a - b)))  (* line 454 *)
  | 9%nat, 8%nat => Some ((((((29052 * a) * b) * (ap + bp)) + ((a ^ 2) * ((49561 * ap) + (13727 * bp)))) + ((b ^ 2) * ((13727 * ap) + (49561 * bp)))) / (9690 * (a - b)))  (* line 458 *)
  | 9%nat, 9%nat => Some (((((((- 5599) * a) * b) * (ap - bp)) + ((a ^ 2) * (((- 22663) * ap) + (5653 * bp)))) + ((b ^ 2) * (((- 5653) * ap) + (22663 * bp)))) / (33915 * (a - b)))  (* line 462 *)
  | 9%nat, 10%nat => Some (((- (flt 7371369600471768 20 13566)) * (((((40716 * a) * b) * (ap + bp)) + ((a ^ 2) * ((53473 * ap) + (21479 * bp)))) + ((b ^ 2) * ((21479 * ap) + (53473 * bp))))) / (a - b))  (* line 466 *)
  | 10%nat, 0%nat => Some ((((((197 * a) * b) * (ap - bp)) + ((a ^ 2) * (((- 18253) * ap) + (53 * bp)))) + ((b ^ 2) * (((- 53) * ap) + (18253 * bp)))) / ((9009 * (sqrt 2)) * (a - b)))  (* line 472 *)
  | 10%nat, 1%nat => Some (((((a ^ 2) * ((36903 * ap) - (103 * bp))) - (((400 * a) * b) * (ap + bp))) + ((b ^ 2) * (((- 103) * ap) + (36903 * bp)))) / (18018 * (a - b)))  (* line 476 *)
  | 10%nat, 2%nat => Some ((((((1297 * a) * b) * (ap - bp)) + ((a ^ 2) * (((- 95391) * ap) + (391 * bp)))) + ((b ^ 2) * (((- 391) * ap) + (95391 * bp)))) / (45045 * (a - b)))  (* line 480 *)
  | 10%nat, 3%nat => Some (((- (flt 111000111000111 19 90090)) * ((((17 * (b ^ 2)) * ((59 * ap) - (11899 * bp))) + (((3280 * a) * b) * (ap + bp))) + ((17 * (a ^ 2)) * (((- 11899) * ap) + (59 * bp))))) / (a - b))  (* line 484 *)
  | 10%nat, 4%nat => Some ((((((16771 * a) * b) * (ap - bp)) + ((a ^ 2) * (((- 627075) * ap) + (6235 * bp)))) + ((5 * (b ^ 2)) * (((- 1247) * ap) + (125415 * bp)))) / (255255 * (a - b)))  (* line 488 *)
  | 10%nat, 5%nat => Some (((((a ^ 2) * ((25999 * ap) - (335 * bp))) - (((912 * a) * b) * (ap + bp))) + ((b ^ 2) * (((- 335) * ap) + (25999 * bp)))) / (9282 * (a - b)))  (* line 492 *)
  | 10%nat, 6%nat => Some ((((((7751 * a) * b) * (ap - bp)) + ((a ^ 2) * (((- 72665) * ap) + (3505 * bp)))) + ((5 * (b ^ 2)) * (((- 701) * ap) + (14533 * bp)))) / (20995 * (a - b)))  (* line 496 *)
  | 10%nat, 7%nat => Some (((((a ^ 2) * ((47227 * ap) - (2747 * bp))) - (((6480 * a) * b) * (ap + bp))) + ((b ^ 2) * (((- 2747) * ap) + (47227 * bp)))) / (9690 * (a - b)))  (* line 500 *)
  | 10%nat, 8%nat => Some (((((((- 5967) * a) * b) * (ap - bp)) - ((a ^ 2) * ((31609 * ap) + (3391 * bp)))) + ((b ^ 2) * ((3391 * ap) + (31609 * bp)))) / (4845 * (a - b)))  (* line 504 *)
  | 10%nat, 9%nat => Some ((((((45200 * a) * b) * (ap + bp)) + ((a ^ 2) * ((76121 * ap) + (21479 * bp)))) + ((b ^ 2) * ((21479 * ap) + (76121 * bp)))) / (13566 * (a - b)))  (* line 508 *)
  | 10%nat, 10%nat => Some (((((((- 25803) * a) * b) * (ap - bp)) + ((a ^ 2) * (((- 104203) * ap) + (26003 * bp)))) + ((b ^ 2) * (((- 26003) * ap) + (104203 * bp)))) / (156009 * (a - b)))  (* line 512 *)
  | _, _ => None
  end.
(** GMAT_sphere.py 515-1009; falling through every branch returns None. *)
Definition MPRIME (i j : nat) (a b ap bp : R) : option R :=
  match i, j with
  | 0%nat, 0%nat => Some (((a * ((2 * ap) + bp)) + (b * (ap + (2 * bp)))) / 3)  (* line 518 *)
  | 0%nat, 1%nat => Some (((sqrt 2) * ((- (a * ap)) + (b * bp))) / 3)  (* line 520 *)
  | 0%nat, 2%nat => Some ((- (flt 6666666666666667 17 15)) * ((sqrt 2) * (((((2 * a) * ap) + ((3 * ap) * b)) + ((3 * a) * bp)) + ((2 * b) * bp))))  (* line 522 *)
  | 0%nat, 3%nat => Some (((sqrt 2) * ((a * ap) - (b * bp))) / 5)  (* line 524 *)
  | 0%nat, 4%nat => Some (((sqrt 2) * ((((((- 10) * a) * ap) + ((3 * ap) * b)) + ((3 * a) * bp)) - ((10 * b) * bp))) / 105)  (* line 526 *)
  | 0%nat, 5%nat => Some (((sqrt 2) * ((a * ap) - (b * bp))) / 21)  (* line 529 *)
  | 0%nat, 6%nat => Some (((sqrt 2) * ((b * (ap - (10 * bp))) + (a * (((- 10) * ap) + bp)))) / 315)  (* line 533 *)
  | 0%nat, 7%nat => Some (((sqrt 2) * ((a * ap) - (b * bp))) / 45)  (* line 537 *)
  | 0%nat, 8%nat => Some (((sqrt 2) * ((((((- 58) * a) * ap) + ((3 * ap) * b)) + ((3 * a) * bp)) - ((58 * b) * bp))) / 3465)  (* line 541 *)
  | 0%nat, 9%nat => Some (((sqrt 2) * ((a * ap) - (b * bp))) / 77)  (* line 545 *)
  | 0%nat, 10%nat => Some (((sqrt 2) * ((((((- 94) * a) * ap) + ((3 * ap) * b)) + ((3 * a) * bp)) - ((94 * b) * bp))) / 9009)  (* line 549 *)
  | 1%nat, 0%nat => Some (((sqrt 2) * ((- (a * ap)) + (b * bp))) / 3)  (* line 555 *)
  | 1%nat, 1%nat => Some ((2 * ((a * ((4 * ap) + bp)) + (b * (ap + (4 * bp))))) / 15)  (* line 559 *)
  | 1%nat, 2%nat => Some (((- 2) * ((a * ap) - (b * bp))) / 15)  (* line 563 *)
  | 1%nat, 3%nat => Some (((- 2) * (((((4 * a) * ap) + ((3 * ap) * b)) + ((3 * a) * bp)) + ((4 * b) * bp))) / 35)  (* line 567 *)
  | 1%nat, 4%nat => Some ((26 * ((a * ap) - (b * bp))) / 105)  (* line 571 *)
  | 1%nat, 5%nat => Some (((- 2) * (((((4 * a) * ap) - (ap * b)) - (a * bp)) + ((4 * b) * bp))) / 63)  (* line 575 *)
  | 1%nat, 6%nat => Some ((22 * ((a * ap) - (b * bp))) / 315)  (* line 579 *)
  | 1%nat, 7%nat => Some (((- 2) * (((((12 * a) * ap) - (ap * b)) - (a * bp)) + ((12 * b) * bp))) / 495)  (* line 583 *)
  | 1%nat, 8%nat => Some ((122 * ((a * ap) - (b * bp))) / 3465)  (* line 587 *)
  | 1%nat, 9%nat => Some (((- 2) * (((((68 * a) * ap) - ((3 * ap) * b)) - ((3 * a) * bp)) + ((68 * b) * bp))) / 5005)  (* line 591 *)
  | 1%nat, 10%nat => Some ((194 * ((a * ap) - (b * bp))) / 9009)  (* line 595 *)
  | 2%nat, 0%nat => Some ((- (flt 6666666666666667 17 15)) * ((sqrt 2) * (((((2 * a) * ap) + ((3 * ap) * b)) + ((3 * a) * bp)) + ((2 * b) * bp))))  (* line 601 *)
  | 2%nat, 1%nat => Some (((- 2) * ((a * ap) - (b * bp))) / 15)  (* line 605 *)
  | 2%nat, 2%nat => Some ((2 * (((((30 * a) * ap) + ((19 * ap) * b)) + ((19 * a) * bp)) + ((30 * b) * bp))) / 105)  (* line 609 *)
  | 2%nat, 3%nat => Some ((2 * ((- (a * ap)) + (b * bp))) / 7)  (* line 613 *)
  | 2%nat, 4%nat => Some (((- 2) * (((((26 * a) * ap) + ((31 * ap) * b)) + ((31 * a) * bp)) + ((26 * b) * bp))) / 315)  (* line 617 *)
  | 2%nat, 5%nat => Some ((2 * ((a * ap) - (b * bp))) / 9)  (* line 621 *)
  | 2%nat, 6%nat => Some (((- 2) * (((((194 * a) * ap) - ((51 * ap) * b)) - ((51 * a) * bp)) + ((194 * b) * bp))) / 3465)  (* line 625 *)
  | 2%nat, 7%nat => Some ((2 * ((a * ap) - (b * bp))) / 33)  (* line 629 *)
  | 2%nat, 8%nat => Some (((- 2) * (((((950 * a) * ap) - ((79 * ap) * b)) - ((79 * a) * bp)) + ((950 * b) * bp))) / 45045)  (* line 633 *)
  | 2%nat, 9%nat => Some ((2 * ((a * ap) - (b * bp))) / 65)  (* line 637 *)
  | 2%nat, 10%nat => Some (((- 2) * (((((538 * a) * ap) - ((23 * ap) * b)) - ((23 * a) * bp)) + ((538 * b) * bp))) / 45045)  (* line 641 *)
  | 3%nat, 0%nat => Some (((sqrt 2) * ((a * ap) - (b * bp))) / 5)  (* line 647 *)
  | 3%nat, 1%nat => Some (((- 2) * (((((4 * a) * ap) + ((3 * ap) * b)) + ((3 * a) * bp)) + ((4 * b) * bp))) / 35)  (* line 651 *)
  | 3%nat, 2%nat => Some ((2 * ((- (a * ap)) + (b * bp))) / 7)  (* line 655 *)
  | 3%nat, 3%nat => Some ((2 * (((((100 * a) * ap) + ((53 * ap) * b)) + ((53 * a) * bp)) + ((100 * b) * bp))) / 315)  (* line 659 *)
  | 3%nat, 4%nat => Some (((- 14) * ((a * ap) - (b * bp))) / 45)  (* line 663 *)
  | 3%nat, 5%nat => Some (((- 2) * (((((52 * a) * ap) + ((69 * ap) * b)) + ((69 * a) * bp)) + ((52 * b) * bp))) / 693)  (* line 667 *)
  | 3%nat, 6%nat => Some ((82 * ((a * ap) - (b * bp))) / 385)  (* line 671 *)
  | 3%nat, 7%nat => Some (((- 2) * (((((340 * a) * ap) - ((93 * ap) * b)) - ((93 * a) * bp)) + ((340 * b) * bp))) / 6435)  (* line 675 *)
  | 3%nat, 8%nat => Some ((46 * ((a * ap) - (b * bp))) / 819)  (* line 679 *)
  | 3%nat, 9%nat => Some (((((((- 584) * a) * ap) + ((50 * ap) * b)) + ((50 * a) * bp)) - ((584 * b) * bp)) / 15015)  (* line 683 *)
  | 3%nat, 10%nat => Some ((14 * ((a * ap) - (b * bp))) / 495)  (* line 687 *)
  | 4%nat, 0%nat => Some (((sqrt 2) * ((((((- 10) * a) * ap) + ((3 * ap) * b)) + ((3 * a) * bp)) - ((10 * b) * bp))) / 105)  (* line 693 *)
  | 4%nat, 1%nat => Some ((26 * ((a * ap) - (b * bp))) / 105)  (* line 697 *)
  | 4%nat, 2%nat => Some (((- 2) * (((((26 * a) * ap) + ((31 * ap) * b)) + ((31 * a) * bp)) + ((26 * b) * bp))) / 315)  (* line 701 *)
  | 4%nat, 3%nat => Some (((- 14) * ((a * ap) - (b * bp))) / 45)  (* line 705 *)
  | 4%nat, 4%nat => Some ((2 * (((((1126 * a) * ap) + ((579 * ap) * b)) + ((579 * a) * bp)) + ((1126 * b) * bp))) / 3465)  (* line 709 *)
  | 4%nat, 5%nat => Some (((- 74) * ((a * ap) - (b * bp))) / 231)  (* line 713 *)
  | 4%nat, 6%nat => Some (((- 2) * (((((3238 * a) * ap) + ((4497 * ap) * b)) + ((4497 * a) * bp)) + ((3238 * b) * bp))) / 45045)  (* line 717 *)
  | 4%nat, 7%nat => Some ((122 * ((a * ap) - (b * bp))) / 585)  (* line 721 *)
  | 4%nat, 8%nat => Some (((- 2) * (((((2306 * a) * ap) - ((647 * ap) * b)) - ((647 * a) * bp)) + ((2306 * b) * bp))) / 45045)  (* line 725 *)
  | 4%nat, 9%nat => Some ((62 * ((a * ap) - (b * bp))) / 1155)  (* line 729 *)
  | 4%nat, 10%nat => Some (((- 2) * (((((14150 * a) * ap) - ((1247 * ap) * b)) - ((1247 * a) * bp)) + ((14150 * b) * bp))) / 765765)  (* line 733 *)
  | 5%nat, 0%nat => Some (((sqrt 2) * ((a * ap) - (b * bp))) / 21)  (* line 739 *)
  | 5%nat, 1%nat => Some (((- 2) * (((((4 * a) * ap) - (ap * b)) - (a * bp)) + ((4 * b) * bp))) / 63)  (* line 743 *)
  | 5%nat, 2%nat => Some ((2 * ((a * ap) - (b * bp))) / 9)  (* line 747 *)
  | 5%nat, 3%nat => Some (((- 2) * (((((52 * a) * ap) + ((69 * ap) * b)) + ((69 * a) * bp)) + ((52 * b) * bp))) / 693)  (* line 751 *)
  | 5%nat, 4%nat => Some (((- 74) * ((a * ap) - (b * bp))) / 231)  (* line 755 *)
  | 5%nat, 5%nat => Some ((2 * (((((2956 * a) * ap) + ((1503 * ap) * b)) + ((1503 * a) * bp)) + ((2956 * b) * bp))) / 9009)  (* line 759 *)
  | 5%nat, 6%nat => Some (((- 38) * ((a * ap) - (b * bp))) / 117)  (* line 763 *)
  | 5%nat, 7%nat => Some (((- 2) * (((((452 * a) * ap) + ((643 * ap) * b)) + ((643 * a) * bp)) + ((452 * b) * bp))) / 6435)  (* line 767 *)
  | 5%nat, 8%nat => Some ((34 * ((a * ap) - (b * bp))) / 165)  (* line 771 *)
  | 5%nat, 9%nat => Some (((- 2) * (((((12820 * a) * ap) - ((3657 * ap) * b)) - ((3657 * a) * bp)) + ((12820 * b) * bp))) / 255255)  (* line 775 *)
  | 5%nat, 10%nat => Some ((242 * ((a * ap) - (b * bp))) / 4641)  (* line 779 *)
  | 6%nat, 0%nat => Some (((sqrt 2) * ((b * (ap - (10 * bp))) + (a * (((- 10) * ap) + bp)))) / 315)  (* line 785 *)
  | 6%nat, 1%nat => Some ((22 * ((a * ap) - (b * bp))) / 315)  (* line 789 *)
  | 6%nat, 2%nat => Some (((- 2) * (((((194 * a) * ap) - ((51 * ap) * b)) - ((51 * a) * bp)) + ((194 * b) * bp))) / 3465)  (* line 793 *)
  | 6%nat, 3%nat => Some ((82 * ((a * ap) - (b * bp))) / 385)  (* line 797 *)
  | 6%nat, 4%nat => Some (((- 2) * (((((3238 * a) * ap) + ((4497 * ap) * b)) + ((4497 * a) * bp)) + ((3238 * b) * bp))) / 45045)  (* line 801 *)
  | 6%nat, 5%nat => Some (((- 38) * ((a * ap) - (b * bp))) / 117)  (* line 805 *)
  | 6%nat, 6%nat => Some ((2 * (((((2122 * a) * ap) + ((1073 * ap) * b)) + ((1073 * a) * bp)) + ((2122 * b) * bp))) / 6435)  (* line 809 *)
  | 6%nat, 7%nat => Some (((- 18) * ((a * ap) - (b * bp))) / 55)  (* line 813 *)
  | 6%nat, 8%nat => Some (((- 2) * (((((842 * a) * ap) + ((1215 * ap) * b)) + ((1215 * a) * bp)) + ((842 * b) * bp))) / 12155)  (* line 817 *)
  | 6%nat, 9%nat => Some ((226 * ((a * ap) - (b * bp))) / 1105)  (* line 821 *)
  | 6%nat, 10%nat => Some (((- 6) * (((((2430 * a) * ap) - ((701 * ap) * b)) - ((701 * a) * bp)) + ((2430 * b) * bp))) / 146965)  (* line 825 *)
  | 7%nat, 0%nat => Some (((sqrt 2) * ((a * ap) - (b * bp))) / 45)  (* line 831 *)
  | 7%nat, 1%nat => Some (((- 2) * (((((12 * a) * ap) - (ap * b)) - (a * bp)) + ((12 * b) * bp))) / 495)  (* line 835 *)
  | 7%nat, 2%nat => Some ((2 * ((a * ap) - (b * bp))) / 33)  (* line 839 *)
  | 7%nat, 3%nat => Some (((- 2) * (((((340 * a) * ap) - ((93 * ap) * b)) - ((93 * a) * bp)) + ((340 * b) * bp))) / 6435)  (* line 843 *)
  | 7%nat, 4%nat => Some ((122 * ((a * ap) - (b * bp))) / 585)  (* line 847 *)
  | 7%nat, 5%nat => Some (((- 2) * (((((452 * a) * ap) + ((643 * ap) * b)) + ((643 * a) * bp)) + ((452 * b) * bp))) / 6435)  (* line 851 *)
  | 7%nat, 6%nat => Some (((- 18) * ((a * ap) - (b * bp))) / 55)  (* line 855 *)
  | 7%nat, 7%nat => Some ((2 * (((((12060 * a) * ap) + ((6079 * ap) * b)) + ((6079 * a) * bp)) + ((12060 * b) * bp))) / 36465)  (* line 859 *)
  | 7%nat, 8%nat => Some (((- 218) * ((a * ap) - (b * bp))) / 663)  (* line 863 *)
  | 7%nat, 9%nat => Some (((- 2) * (((((4324 * a) * ap) + ((6297 * ap) * b)) + ((6297 * a) * bp)) + ((4324 * b) * bp))) / 62985)  (* line 867 *)
  | 7%nat, 10%nat => Some ((58 * ((a * ap) - (b * bp))) / 285)  (* line 871 *)
  | 8%nat, 0%nat => Some (((sqrt 2) * ((((((- 58) * a) * ap) + ((3 * ap) * b)) + ((3 * a) * bp)) - ((58 * b) * bp))) / 3465)  (* line 877 *)
  | 8%nat, 1%nat => Some ((122 * ((a * ap) - (b * bp))) / 3465)  (* line 881 *)
  | 8%nat, 2%nat => Some (((- 2) * (((((950 * a) * ap) - ((79 * ap) * b)) - ((79 * a) * bp)) + ((950 * b) * bp))) / 45045)  (* line 885 *)
  | 8%nat, 3%nat => Some ((46 * ((a * ap) - (b * bp))) / 819)  (* line 889 *)
  | 8%nat, 4%nat => Some (((- 2) * (((((2306 * a) * ap) - ((647 * ap) * b)) - ((647 * a) * bp)) + ((2306 * b) * bp))) / 45045)  (* line 893 *)
  | 8%nat, 5%nat => Some ((34 * ((a * ap) - (b * bp))) / 165)  (* line 897 *)
  | 8%nat, 6%nat => Some (((- 2) * (((((842 * a) * ap) + ((1215 * ap) * b)) + ((1215 * a) * bp)) + ((842 * b) * bp))) / 12155)  (* line 901 *)
  | 8%nat, 7%nat => Some (((- 218) * ((a * ap) - (b * bp))) / 663)  (* line 905 *)
  | 8%nat, 8%nat => Some ((2 * (((((20870 * a) * ap) + ((10499 * ap) * b)) + ((10499 * a) * bp)) + ((20870 * b) * bp))) / 62985)  (* line 909 *)
  | 8%nat, 9%nat => Some (((- 94) * ((a * ap) - (b * bp))) / 285)  (* line 913 *)
  | 8%nat, 10%nat => Some (((- 2) * (((((2314 * a) * ap) + ((3391 * ap) * b)) + ((3391 * a) * bp)) + ((2314 * b) * bp))) / 33915)  (* line 917 *)
  | 9%nat, 0%nat => Some (((sqrt 2) * ((a * ap) - (b * bp))) / 77)  (* line 923 *)
  | 9%nat, 1%nat => Some (((- 2) * (((((68 * a) * ap) - ((3 * ap) * b)) - ((3 * a) * bp)) + ((68 * b) * bp))) / 5005)  (* line 927 *)
  | 9%nat, 2%nat => Some ((2 * ((a * ap) - (b * bp))) / 65)  (* line 931 *)
  | 9%nat, 3%nat => Some (((((((- 584) * a) * ap) + ((50 * ap) * b)) + ((50 * a) * bp)) - ((584 * b) * bp)) / 15015)  (* line 935 *)
  | 9%nat, 4%nat => Some ((62 * ((a * ap) - (b * bp))) / 1155)  (* line 939 *)
  | 9%nat, 5%nat => Some (((- 2) * (((((12820 * a) * ap) - ((3657 * ap) * b)) - ((3657 * a) * bp)) + ((12820 * b) * bp))) / 255255)  (* line 943 *)
  | 9%nat, 6%nat => Some ((226 * ((a * ap) - (b * bp))) / 1105)  (* line 947 *)
  | 9%nat, 7%nat => Some (((- 2) * (((((4324 * a) * ap) + ((6297 * ap) * b)) + ((6297 * a) * bp)) + ((4324 * b) * bp))) / 62985)  (* line 951 *)
  | 9%nat, 8%nat => Some (((- 94) * ((a * ap) - (b * bp))) / 285)  (* line 955 *)
  | 9%nat, 9%nat => Some ((2 * (((((11252 * a) * ap) + ((5653 * ap) * b)) + ((5653 * a) * bp)) + ((11252 * b) * bp))) / 33915)  (* line 959 *)
  | 9%nat, 10%nat => Some ((59 * ((((- 2) * a) * ap) + ((2 * b) * bp))) / 357)  (* line 963 *)
  | 10%nat, 0%nat => Some (((sqrt 2) * ((((((- 94) * a) * ap) + ((3 * ap) * b)) + ((3 * a) * bp)) - ((94 * b) * bp))) / 9009)  (* line 969 *)
  | 10%nat, 1%nat => Some ((194 * ((a * ap) - (b * bp))) / 9009)  (* line 973 *)
  | 10%nat, 2%nat => Some (((- 2) * (((((538 * a) * ap) - ((23 * ap) * b)) - ((23 * a) * bp)) + ((538 * b) * bp))) / 45045)  (* line 977 *)
  | 10%nat, 3%nat => Some ((14 * ((a * ap) - (b * bp))) / 495)  (* line 981 *)
  | 10%nat, 4%nat => Some (((- 2) * (((((14150 * a) * ap) - ((1247 * ap) * b)) - ((1247 * a) * bp)) + ((14150 * b) * bp))) / 765765)  (* line 985 *)
  | 10%nat, 5%nat => Some ((242 * ((a * ap) - (b * bp))) / 4641)  (* line 989 *)
  | 10%nat, 6%nat => Some (((- 6) * (((((2430 * a) * ap) - ((701 * ap) * b)) - ((701 * a) * bp)) + ((2430 * b) * bp))) / 146965)  (* line 993 *)
  | 10%nat, 7%nat => Some ((58 * ((a * ap) - (b * bp))) / 285)  (* line 997 *)
  | 10%nat, 8%nat => Some (((- 2) * (((((2314 * a) * ap) + ((3391 * ap) * b)) + ((3391 * a) * bp)) + ((2314 * b) * bp))) / 33915)  (* line 1001 *)
  | 10%nat, 9%nat => Some ((59 * ((((- 2) * a) * ap) + ((2 * b) * bp))) / 357)  (* line 1005 *)
  | 10%nat, 10%nat => Some ((2 * (((((51806 * a) * ap) + ((26003 * ap) * b)) + ((26003 * a) * bp)) + ((51806 * b) * bp))) / 156009)  (* line 1009 *)
  | _, _ => None
  end.
