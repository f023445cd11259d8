(** * The 462 straight-line functions of source/ass_leg_function.cc and its two pointer tables.

    GENERATED from the C++ text by /verif/tools/leg/gen.py: one definition per member function, in
    source order, each statement  tK = e;  becoming the pair (K, e) and the return expression last.
    #z is a numeric literal (all literals of the file are integers written like 0.42e2), $k is the
    local variable tK, X the argument. *)
From Coq Require Import ZArith List.
From Verif Require Import ModelLegendre.
Import ListNotations.
Local Open Scope leg_scope.

(** source/ass_leg_function.cc 539-542 *)
Definition P_0_0 : prog := ([], #1).
(** source/ass_leg_function.cc 545-548 *)
Definition P_0_0_Deriv : prog := ([], #0).
(** source/ass_leg_function.cc 551-554 *)
Definition P_1_0 : prog := ([], X).
(** source/ass_leg_function.cc 557-560 *)
Definition P_1_0_Deriv : prog := ([], #1).
(** source/ass_leg_function.cc 563-572 *)
Definition P_1_1 : prog := ([(1%positive, (Sqrt #2));
  (2%positive, (X * X));
  (4%positive, (Sqrt (#1 - $2)))], (((Neg $1) * $4) / #2)).
(** source/ass_leg_function.cc 577-586 *)
Definition P_1_1_Deriv : prog := ([(1%positive, (Sqrt #2));
  (2%positive, (X * X));
  (4%positive, (Sqrt (#1 - $2)))], ((($1 / $4) * X) / #2)).
(** source/ass_leg_function.cc 589-594 *)
Definition P_2_0 : prog := ([(1%positive, (X * X))], (((#3 / #2) * $1) - (#1 / #2))).
(** source/ass_leg_function.cc 597-600 *)
Definition P_2_0_Deriv : prog := ([], (#3 * X)).
(** source/ass_leg_function.cc 605-614 *)
Definition P_2_1 : prog := ([(1%positive, (Sqrt #6));
  (2%positive, (X * X));
  (4%positive, (Sqrt (#1 - $2)))], ((((Neg $1) * $4) * X) / #2)).
(** source/ass_leg_function.cc 619-628 *)
Definition P_2_1_Deriv : prog := ([(1%positive, (Sqrt #6));
  (2%positive, (X * X));
  (4%positive, (Sqrt (#1 - $2)))], (((($1 / $4) * $2) / #2) - (($1 * $4) / #2))).
(** source/ass_leg_function.cc 633-640 *)
Definition P_2_2 : prog := ([(1%positive, (Sqrt #6));
  (2%positive, (X * X))], (($1 * (#1 - $2)) / #4)).
(** source/ass_leg_function.cc 645-650 *)
Definition P_2_2_Deriv : prog := ([(1%positive, (Sqrt #6))], (((Neg $1) * X) / #2)).
(** source/ass_leg_function.cc 653-658 *)
Definition P_3_0 : prog := ([(1%positive, (X * X))], (($1 * X) + (((#3 / #2) * ($1 - #1)) * X))).
(** source/ass_leg_function.cc 661-666 *)
Definition P_3_0_Deriv : prog := ([(1%positive, (X * X))], (((#15 / #2) * $1) - (#3 / #2))).
(** source/ass_leg_function.cc 671-680 *)
Definition P_3_1 : prog := ([(1%positive, (Sqrt #3));
  (2%positive, (X * X));
  (4%positive, (Sqrt (#1 - $2)))], ((((Neg $1) * $4) * ((#360 * $2) - #72)) / #288)).
(** source/ass_leg_function.cc 685-695 *)
Definition P_3_1_Deriv : prog := ([(1%positive, (Sqrt #3));
  (2%positive, (X * X));
  (4%positive, (Sqrt (#1 - $2)))], ((((($1 / $4) * ((#360 * $2) - #72)) * X) / #288) - ((((#5 / #2) * $1) * $4) * X))).
(** source/ass_leg_function.cc 700-707 *)
Definition P_3_2 : prog := ([(1%positive, (Sqrt #30));
  (2%positive, (X * X))], ((($1 * (#1 - $2)) * X) / #4)).
(** source/ass_leg_function.cc 712-719 *)
Definition P_3_2_Deriv : prog := ([(1%positive, (Sqrt #30));
  (2%positive, (X * X))], ((((Neg $1) * $2) / #2) + (($1 * (#1 - $2)) / #4))).
(** source/ass_leg_function.cc 724-735 *)
Definition P_3_3 : prog := ([(1%positive, (Sqrt #5));
  (2%positive, (X * X));
  (3%positive, (#1 - $2));
  (4%positive, (Sqrt $3))], ((((Neg $1) * $4) * $3) / #4)).
(** source/ass_leg_function.cc 740-749 *)
Definition P_3_3_Deriv : prog := ([(1%positive, (Sqrt #5));
  (2%positive, (X * X));
  (4%positive, (Sqrt (#1 - $2)))], ((((#3 / #4) * $1) * $4) * X)).
(** source/ass_leg_function.cc 752-763 *)
Definition P_4_0 : prog := ([(1%positive, (X * X));
  (2%positive, ($1 * $1));
  (3%positive, ($1 - #1));
  (6%positive, ($3 * $3))], (($2 + ((#3 * $3) * $1)) + ((#3 / #8) * $6))).
(** source/ass_leg_function.cc 766-771 *)
Definition P_4_0_Deriv : prog := ([(1%positive, (X * X))], (((#10 * $1) * X) + (((#15 / #2) * ($1 - #1)) * X))).
(** source/ass_leg_function.cc 776-787 *)
Definition P_4_1 : prog := ([(1%positive, (Sqrt #5));
  (2%positive, (X * X));
  (3%positive, (#1 - $2));
  (4%positive, (Sqrt $3))], ((((Neg $1) * $4) * (((#3840 * $2) * X) - ((#2880 * $3) * X))) / #3840)).
(** source/ass_leg_function.cc 792-804 *)
Definition P_4_1_Deriv : prog := ([(1%positive, (Sqrt #5));
  (2%positive, (X * X));
  (3%positive, (#1 - $2));
  (4%positive, (Sqrt $3))], ((((($1 / $4) * (((#3840 * $2) * X) - ((#2880 * $3) * X))) * X) / #3840) - ((($1 * $4) * ((#20160 * $2) - #2880)) / #3840))).
(** source/ass_leg_function.cc 809-816 *)
Definition P_4_2 : prog := ([(1%positive, (Sqrt #10));
  (2%positive, (X * X))], ((($1 * (#1 - $2)) * ((#20160 * $2) - #2880)) / #23040)).
(** source/ass_leg_function.cc 821-829 *)
Definition P_4_2_Deriv : prog := ([(1%positive, (Sqrt #10));
  (3%positive, (X * X))], (((((Neg $1) * X) * ((#20160 * $3) - #2880)) / #11520) + ((((#7 / #4) * $1) * (#1 - $3)) * X))).
(** source/ass_leg_function.cc 834-845 *)
Definition P_4_3 : prog := ([(1%positive, (Sqrt #35));
  (2%positive, (X * X));
  (3%positive, (#1 - $2));
  (4%positive, (Sqrt $3))], (((((Neg $1) * $4) * $3) * X) / #4)).
(** source/ass_leg_function.cc 850-861 *)
Definition P_4_3_Deriv : prog := ([(1%positive, (Sqrt #35));
  (2%positive, (X * X));
  (3%positive, (#1 - $2));
  (4%positive, (Sqrt $3))], (((((#3 / #4) * $1) * $4) * $2) - ((($1 * $4) * $3) / #4))).
(** source/ass_leg_function.cc 866-875 *)
Definition P_4_4 : prog := ([(1%positive, (Sqrt #70));
  (2%positive, (X * X));
  (4%positive, (Pow2 (#1 - $2)))], (($1 * $4) / #16)).
(** source/ass_leg_function.cc 880-887 *)
Definition P_4_4_Deriv : prog := ([(1%positive, (Sqrt #70));
  (2%positive, (X * X))], ((((Neg $1) * (#1 - $2)) * X) / #4)).
(** source/ass_leg_function.cc 890-901 *)
Definition P_5_0 : prog := ([(1%positive, (X * X));
  (2%positive, ($1 * $1));
  (4%positive, ($1 - #1));
  (8%positive, ($4 * $4))], ((($2 * X) + (((#5 * $4) * $1) * X)) + (((#15 / #8) * $8) * X))).
(** source/ass_leg_function.cc 904-915 *)
Definition P_5_0_Deriv : prog := ([(1%positive, (X * X));
  (2%positive, ($1 * $1));
  (4%positive, ($1 - #1));
  (7%positive, ($4 * $4))], (((#15 * $2) + (((#45 / #2) * $1) * $4)) + ((#15 / #8) * $7))).
(** source/ass_leg_function.cc 920-938 *)
Definition P_5_1 : prog := ([(1%positive, (Sqrt #30));
  (2%positive, (X * X));
  (3%positive, (#1 - $2));
  (4%positive, (Sqrt $3));
  (6%positive, ($2 * $2));
  (8%positive, (Neg $3));
  (11%positive, ($8 * $8))], ((((Neg $1) * $4) * (((#57600 * $6) + ((#86400 * $8) * $2)) + (#7200 * $11))) / #115200)).
(** source/ass_leg_function.cc 943-962 *)
Definition P_5_1_Deriv : prog := ([(1%positive, (Sqrt #30));
  (2%positive, (X * X));
  (3%positive, (#1 - $2));
  (4%positive, (Sqrt $3));
  (7%positive, ($2 * $2));
  (9%positive, (Neg $3));
  (12%positive, ($9 * $9))], ((((($1 / $4) * (((#57600 * $7) + ((#86400 * $9) * $2)) + (#7200 * $12))) * X) / #115200) - ((($1 * $4) * (((#403200 * $2) * X) + ((#201600 * $9) * X))) / #115200))).
(** source/ass_leg_function.cc 967-976 *)
Definition P_5_2 : prog := ([(1%positive, (Sqrt #210));
  (2%positive, (X * X));
  (3%positive, (#1 - $2))], ((($1 * $3) * (((#403200 * $2) * X) - ((#201600 * $3) * X))) / #1612800)).
(** source/ass_leg_function.cc 981-991 *)
Definition P_5_2_Deriv : prog := ([(1%positive, (Sqrt #210));
  (3%positive, (X * X));
  (6%positive, ($3 - #1))], (((((Neg $1) * X) * (((#403200 * $3) * X) + ((#201600 * $6) * X))) / #806400) - ((($1 * $6) * ((#1814400 * $3) - #201600)) / #1612800))).
(** source/ass_leg_function.cc 996-1007 *)
Definition P_5_3 : prog := ([(1%positive, (Sqrt #35));
  (2%positive, (X * X));
  (3%positive, (#1 - $2));
  (4%positive, (Sqrt $3))], (((((Neg $1) * $4) * $3) * ((#1814400 * $2) - #201600)) / #3225600)).
(** source/ass_leg_function.cc 1012-1024 *)
Definition P_5_3_Deriv : prog := ([(1%positive, (Sqrt #35));
  (2%positive, (X * X));
  (3%positive, (#1 - $2));
  (4%positive, (Sqrt $3))], ((((($1 * $4) * ((#1814400 * $2) - #201600)) * X) / #1075200) - (((((#9 / #8) * $1) * $4) * $3) * X))).
(** source/ass_leg_function.cc 1029-1038 *)
Definition P_5_4 : prog := ([(1%positive, (Sqrt #70));
  (2%positive, (X * X));
  (4%positive, (Pow2 (#1 - $2)))], ((((#3 / #16) * $1) * $4) * X)).
(** source/ass_leg_function.cc 1043-1054 *)
Definition P_5_4_Deriv : prog := ([(1%positive, (Sqrt #70));
  (2%positive, (X * X));
  (3%positive, (#1 - $2));
  (7%positive, ($3 * $3))], ((((((Neg #3) / #4) * $1) * $3) * $2) + (((#3 / #16) * $1) * $7))).
(** source/ass_leg_function.cc 1059-1072 *)
Definition P_5_5 : prog := ([(1%positive, (Sqrt #7));
  (2%positive, (X * X));
  (3%positive, (#1 - $2));
  (4%positive, ($3 * $3));
  (5%positive, (Sqrt $3))], (((((Neg #3) / #16) * $1) * $5) * $4)).
(** source/ass_leg_function.cc 1077-1088 *)
Definition P_5_5_Deriv : prog := ([(1%positive, (Sqrt #7));
  (2%positive, (X * X));
  (3%positive, (#1 - $2));
  (4%positive, (Sqrt $3))], (((((#15 / #16) * $1) * $4) * $3) * X)).
(** source/ass_leg_function.cc 1091-1103 *)
Definition P_6_0 : prog := ([(1%positive, (X * X));
  (2%positive, ($1 * $1));
  (4%positive, ($1 - #1));
  (7%positive, ($4 * $4))], (((($2 * $1) + (((#15 / #2) * $4) * $2)) + (((#45 / #8) * $7) * $1)) + (((#5 / #16) * $7) * $4))).
(** source/ass_leg_function.cc 1106-1118 *)
Definition P_6_0_Deriv : prog := ([(1%positive, (X * X));
  (2%positive, ($1 * $1));
  (5%positive, ($1 - #1));
  (9%positive, ($5 * $5))], ((((#21 * $2) * X) + ((((#105 / #2) * $5) * $1) * X)) + (((#105 / #8) * $9) * X))).
(** source/ass_leg_function.cc 1123-1143 *)
Definition P_6_1 : prog := ([(1%positive, (Sqrt #42));
  (2%positive, (X * X));
  (3%positive, (#1 - $2));
  (4%positive, (Sqrt $3));
  (6%positive, ($2 * $2));
  (9%positive, (Neg $3));
  (13%positive, ($9 * $9))], ((((Neg $1) * $4) * ((((#967680 * $6) * X) + (((#2419200 * $9) * $2) * X)) + ((#604800 * $13) * X))) / #1935360)).
(** source/ass_leg_function.cc 1148-1171 *)
Definition P_6_1_Deriv : prog := ([(1%positive, (Sqrt #42));
  (2%positive, (X * X));
  (3%positive, (#1 - $2));
  (4%positive, (Sqrt $3));
  (7%positive, ($2 * $2));
  (10%positive, (Neg $3));
  (14%positive, ($10 * $10))], ((((($1 / $4) * ((((#967680 * $7) * X) + (((#2419200 * $10) * $2) * X)) + ((#604800 * $14) * X))) * X) / #1935360) - ((($1 * $4) * (((#9676800 * $7) + ((#9676800 * $10) * $2)) + (#604800 * $14))) / #1935360))).
(** source/ass_leg_function.cc 1176-1193 *)
Definition P_6_2 : prog := ([(1%positive, (Sqrt #105));
  (2%positive, (X * X));
  (3%positive, (#1 - $2));
  (5%positive, ($2 * $2));
  (7%positive, (Neg $3));
  (10%positive, ($7 * $7))], ((($1 * $3) * (((#9676800 * $5) + ((#9676800 * $7) * $2)) + (#604800 * $10))) / #19353600)).
(** source/ass_leg_function.cc 1198-1214 *)
Definition P_6_2_Deriv : prog := ([(1%positive, (Sqrt #105));
  (3%positive, (X * X));
  (4%positive, ($3 * $3));
  (6%positive, ($3 - #1));
  (9%positive, ($6 * $6))], (((((Neg $1) * X) * (((#9676800 * $4) + ((#9676800 * $6) * $3)) + (#604800 * $9))) / #9676800) - ((($1 * $6) * (((#58060800 * $3) * X) + ((#21772800 * $6) * X))) / #19353600))).
(** source/ass_leg_function.cc 1219-1231 *)
Definition P_6_3 : prog := ([(1%positive, (Sqrt #105));
  (2%positive, (X * X));
  (3%positive, (#1 - $2));
  (4%positive, (Sqrt $3))], (((((Neg $1) * $4) * $3) * (((#58060800 * $2) * X) - ((#21772800 * $3) * X))) / #116121600)).
(** source/ass_leg_function.cc 1236-1249 *)
Definition P_6_3_Deriv : prog := ([(1%positive, (Sqrt #105));
  (2%positive, (X * X));
  (3%positive, (#1 - $2));
  (4%positive, (Sqrt $3))], ((((($1 * $4) * (((#58060800 * $2) * X) - ((#21772800 * $3) * X))) * X) / #38707200) - (((($1 * $4) * $3) * ((#239500800 * $2) - #21772800)) / #116121600))).
(** source/ass_leg_function.cc 1254-1263 *)
Definition P_6_4 : prog := ([(1%positive, (Sqrt #14));
  (2%positive, (X * X));
  (4%positive, (Pow2 (#1 - $2)))], ((($1 * $4) * ((#239500800 * $2) - #21772800)) / #232243200)).
(** source/ass_leg_function.cc 1268-1280 *)
Definition P_6_4_Deriv : prog := ([(1%positive, (Sqrt #14));
  (2%positive, (X * X));
  (3%positive, (#1 - $2));
  (10%positive, ($3 * $3))], ((((((Neg $1) * $3) * ((#239500800 * $2) - #21772800)) * X) / #58060800) + ((((#33 / #16) * $1) * $10) * X))).
(** source/ass_leg_function.cc 1285-1298 *)
Definition P_6_5 : prog := ([(1%positive, (Sqrt #77));
  (2%positive, (X * X));
  (3%positive, (#1 - $2));
  (4%positive, ($3 * $3));
  (5%positive, (Sqrt $3))], ((((((Neg #3) / #16) * $1) * $5) * $4) * X)).
(** source/ass_leg_function.cc 1303-1316 *)
Definition P_6_5_Deriv : prog := ([(1%positive, (Sqrt #77));
  (2%positive, (X * X));
  (3%positive, (#1 - $2));
  (4%positive, (Sqrt $3));
  (9%positive, ($3 * $3))], ((((((#15 / #16) * $1) * $4) * $3) * $2) - ((((#3 / #16) * $1) * $4) * $9))).
(** source/ass_leg_function.cc 1321-1332 *)
Definition P_6_6 : prog := ([(1%positive, (Sqrt #231));
  (2%positive, (X * X));
  (3%positive, (#1 - $2));
  (4%positive, ($3 * $3))], ((($1 * $4) * $3) / #32)).
(** source/ass_leg_function.cc 1337-1346 *)
Definition P_6_6_Deriv : prog := ([(1%positive, (Sqrt #231));
  (2%positive, (X * X));
  (4%positive, (Pow2 (#1 - $2)))], (((((Neg #3) / #16) * $1) * $4) * X)).
(** source/ass_leg_function.cc 1349-1363 *)
Definition P_7_0 : prog := ([(1%positive, (X * X));
  (2%positive, ($1 * X));
  (3%positive, ($1 * $1));
  (5%positive, ($1 - #1));
  (9%positive, ($5 * $5))], (((($3 * $2) + ((((#21 / #2) * $5) * $3) * X)) + (((#105 / #8) * $9) * $2)) + ((((#35 / #16) * $9) * $5) * X))).
(** source/ass_leg_function.cc 1366-1378 *)
Definition P_7_0_Deriv : prog := ([(1%positive, (X * X));
  (2%positive, ($1 * $1));
  (5%positive, ($1 - #1));
  (8%positive, ($5 * $5))], (((((#28 * $2) * $1) + ((#105 * $2) * $5)) + (((#105 / #2) * $8) * $1)) + (((#35 / #16) * $8) * $5))).
(** source/ass_leg_function.cc 1383-1403 *)
Definition P_7_1 : prog := ([(1%positive, (Sqrt #14));
  (2%positive, (X * X));
  (3%positive, (#1 - $2));
  (4%positive, (Sqrt $3));
  (6%positive, ($2 * $2));
  (9%positive, (Neg $3));
  (12%positive, ($9 * $9))], ((((Neg $1) * $4) * (((((#18063360 * $6) * $2) + ((#67737600 * $9) * $6)) + ((#33868800 * $12) * $2)) + ((#1411200 * $12) * $9))) / #18063360)).
(** source/ass_leg_function.cc 1408-1432 *)
Definition P_7_1_Deriv : prog := ([(1%positive, (Sqrt #14));
  (2%positive, (X * X));
  (3%positive, (#1 - $2));
  (4%positive, (Sqrt $3));
  (7%positive, ($2 * $2));
  (10%positive, (Neg $3));
  (13%positive, ($10 * $10))], ((((($1 / $4) * (((((#18063360 * $2) * $7) + ((#67737600 * $10) * $7)) + ((#33868800 * $13) * $2)) + ((#1411200 * $13) * $10))) * X) / #18063360) - ((($1 * $4) * ((((#243855360 * $7) * X) + (((#406425600 * $10) * $2) * X)) + ((#76204800 * $13) * X))) / #18063360))).
(** source/ass_leg_function.cc 1437-1455 *)
Definition P_7_2 : prog := ([(1%positive, (Sqrt #21));
  (2%positive, (X * X));
  (3%positive, (#1 - $2));
  (5%positive, ($2 * $2));
  (8%positive, (Neg $3));
  (12%positive, ($8 * $8))], ((($1 * $3) * ((((#243855360 * $5) * X) + (((#406425600 * $8) * $2) * X)) + ((#76204800 * $12) * X))) / #162570240)).
(** source/ass_leg_function.cc 1460-1480 *)
Definition P_7_2_Deriv : prog := ([(1%positive, (Sqrt #21));
  (3%positive, (X * X));
  (4%positive, ($3 * $3));
  (7%positive, ($3 - #1));
  (11%positive, ($7 * $7))], (((((Neg $1) * X) * ((((#243855360 * $4) * X) + (((#406425600 * $7) * $3) * X)) + ((#76204800 * $11) * X))) / #81285120) - ((($1 * $7) * (((#2032128000 * $4) + ((#1524096000 * $7) * $3)) + (#76204800 * $11))) / #162570240))).
(** source/ass_leg_function.cc 1485-1505 *)
Definition P_7_3 : prog := ([(1%positive, (Sqrt #42));
  (2%positive, (X * X));
  (3%positive, (#1 - $2));
  (4%positive, (Sqrt $3));
  (7%positive, ($2 * $2));
  (9%positive, (Neg $3));
  (12%positive, ($9 * $9))], (((((Neg $1) * $4) * $3) * (((#2032128000 * $7) + ((#1524096000 * $9) * $2)) + (#76204800 * $12))) / #1625702400)).
(** source/ass_leg_function.cc 1510-1532 *)
Definition P_7_3_Deriv : prog := ([(1%positive, (Sqrt #42));
  (2%positive, (X * X));
  (3%positive, (#1 - $2));
  (4%positive, (Sqrt $3));
  (6%positive, ($2 * $2));
  (8%positive, (Neg $3));
  (11%positive, ($8 * $8))], ((((($1 * $4) * (((#2032128000 * $6) + ((#1524096000 * $8) * $2)) + (#76204800 * $11))) * X) / #541900800) - (((($1 * $4) * $3) * (((#11176704000 * $2) * X) + ((#3353011200 * $8) * X))) / #1625702400))).
(** source/ass_leg_function.cc 1537-1549 *)
Definition P_7_4 : prog := ([(1%positive, (Sqrt #462));
  (2%positive, (X * X));
  (3%positive, (#1 - $2));
  (4%positive, ($3 * $3))], ((($1 * $4) * (((#11176704000 * $2) * X) - ((#3353011200 * $3) * X))) / #35765452800)).
(** source/ass_leg_function.cc 1554-1568 *)
Definition P_7_4_Deriv : prog := ([(1%positive, (Sqrt #462));
  (2%positive, (X * X));
  (3%positive, (#1 - $2));
  (14%positive, ($3 * $3))], ((((((Neg $1) * $3) * (((#11176704000 * $2) * X) - ((#3353011200 * $3) * X))) * X) / #8941363200) + ((($1 * $14) * ((#43589145600 * $2) - #3353011200)) / #35765452800))).
(** source/ass_leg_function.cc 1573-1587 *)
Definition P_7_5 : prog := ([(1%positive, (Sqrt #462));
  (2%positive, (X * X));
  (3%positive, (#1 - $2));
  (4%positive, ($3 * $3));
  (5%positive, (Sqrt $3))], (((((Neg $1) * $5) * $4) * ((#43589145600 * $2) - #3353011200)) / #214592716800)).
(** source/ass_leg_function.cc 1592-1607 *)
Definition P_7_5_Deriv : prog := ([(1%positive, (Sqrt #462));
  (2%positive, (X * X));
  (3%positive, (#1 - $2));
  (4%positive, (Sqrt $3));
  (12%positive, ($3 * $3))], (((((($1 * $4) * $3) * ((#43589145600 * $2) - #3353011200)) * X) / #42918543360) - (((((#13 / #32) * $1) * $4) * $12) * X))).
(** source/ass_leg_function.cc 1612-1623 *)
Definition P_7_6 : prog := ([(1%positive, (Sqrt #3003));
  (2%positive, (X * X));
  (3%positive, (#1 - $2));
  (4%positive, ($3 * $3))], (((($1 * $4) * $3) * X) / #32)).
(** source/ass_leg_function.cc 1628-1639 *)
Definition P_7_6_Deriv : prog := ([(1%positive, (Sqrt #3003));
  (2%positive, (X * X));
  (3%positive, (#1 - $2));
  (4%positive, ($3 * $3))], ((((((Neg #3) / #16) * $1) * $4) * $2) + ((($1 * $4) * $3) / #32))).
(** source/ass_leg_function.cc 1644-1657 *)
Definition P_7_7 : prog := ([(1%positive, (Sqrt #858));
  (2%positive, (X * X));
  (3%positive, (#1 - $2));
  (4%positive, ($3 * $3));
  (6%positive, (Sqrt $3))], (((((Neg $1) * $6) * $4) * $3) / #64)).
(** source/ass_leg_function.cc 1662-1675 *)
Definition P_7_7_Deriv : prog := ([(1%positive, (Sqrt #858));
  (2%positive, (X * X));
  (3%positive, (#1 - $2));
  (4%positive, ($3 * $3));
  (5%positive, (Sqrt $3))], (((((#7 / #64) * $1) * $5) * $4) * X)).
(** source/ass_leg_function.cc 1678-1694 *)
Definition P_8_0 : prog := ([(1%positive, (X * X));
  (2%positive, ($1 * $1));
  (3%positive, ($2 * $2));
  (4%positive, ($1 - #1));
  (8%positive, ($4 * $4));
  (14%positive, ($8 * $8))], (((($3 + (((#14 * $4) * $2) * $1)) + (((#105 / #4) * $8) * $2)) + ((((#35 / #4) * $8) * $4) * $1)) + ((#35 / #128) * $14))).
(** source/ass_leg_function.cc 1697-1711 *)
Definition P_8_0_Deriv : prog := ([(1%positive, (X * X));
  (2%positive, ($1 * X));
  (3%positive, ($1 * $1));
  (6%positive, ($1 - #1));
  (10%positive, ($6 * $6))], (((((#36 * $3) * $2) + (((#189 * $6) * $3) * X)) + (((#315 / #2) * $2) * $10)) + ((((#315 / #16) * $10) * $6) * X))).
(** source/ass_leg_function.cc 1716-1738 *)
Definition P_8_1 : prog := ([(1%positive, (Sqrt #2));
  (2%positive, (X * X));
  (3%positive, (#1 - $2));
  (4%positive, (Sqrt $3));
  (6%positive, ($2 * X));
  (7%positive, ($2 * $2));
  (10%positive, (Neg $3));
  (14%positive, ($10 * $10))], ((((Neg $1) * $4) * (((((#371589120 * $7) * $6) + (((#1950842880 * $10) * $7) * X)) + ((#1625702400 * $14) * $6)) + (((#203212800 * $14) * $10) * X))) / #123863040)).
(** source/ass_leg_function.cc 1743-1771 *)
Definition P_8_1_Deriv : prog := ([(1%positive, (Sqrt #2));
  (2%positive, (X * X));
  (3%positive, (#1 - $2));
  (4%positive, (Sqrt $3));
  (7%positive, ($2 * X));
  (8%positive, ($2 * $2));
  (11%positive, (Neg $3));
  (15%positive, ($11 * $11));
  (18%positive, ($15 * $11))], ((((($1 / $4) * (((((#371589120 * $7) * $8) + (((#1950842880 * $11) * $8) * X)) + ((#1625702400 * $15) * $7)) + ((#203212800 * $18) * X))) * X) / #123863040) - ((($1 * $4) * (((((#6502809600 * $8) * $2) + ((#16257024000 * $11) * $8)) + ((#6096384000 * $15) * $2)) + (#203212800 * $18))) / #123863040))).
(** source/ass_leg_function.cc 1776-1794 *)
Definition P_8_2 : prog := ([(1%positive, (Sqrt #35));
  (2%positive, (X * X));
  (3%positive, (#1 - $2));
  (5%positive, ($2 * $2));
  (8%positive, (Neg $3));
  (11%positive, ($8 * $8))], ((($1 * $3) * (((((#6502809600 * $5) * $2) + ((#16257024000 * $5) * $8)) + ((#6096384000 * $11) * $2)) + ((#203212800 * $11) * $8))) / #4335206400)).
(** source/ass_leg_function.cc 1799-1819 *)
Definition P_8_2_Deriv : prog := ([(1%positive, (Sqrt #35));
  (3%positive, (X * X));
  (4%positive, ($3 * $3));
  (7%positive, ($3 - #1));
  (10%positive, ($7 * $7))], (((((Neg $1) * X) * (((((#6502809600 * $4) * $3) + ((#16257024000 * $7) * $4)) + ((#6096384000 * $10) * $3)) + ((#203212800 * $10) * $7))) / #2167603200) - ((($1 * $7) * ((((#71530905600 * $4) * X) + (((#89413632000 * $7) * $3) * X)) + ((#13412044800 * $10) * X))) / #4335206400))).
(** source/ass_leg_function.cc 1824-1844 *)
Definition P_8_3 : prog := ([(1%positive, (Sqrt #2310));
  (2%positive, (X * X));
  (3%positive, (#1 - $2));
  (4%positive, (Sqrt $3));
  (7%positive, ($2 * $2));
  (10%positive, (Neg $3));
  (14%positive, ($10 * $10))], (((((Neg $1) * $4) * $3) * ((((#71530905600 * $7) * X) + (((#89413632000 * $10) * $2) * X)) + ((#13412044800 * $14) * X))) / #286123622400)).
(** source/ass_leg_function.cc 1849-1873 *)
Definition P_8_3_Deriv : prog := ([(1%positive, (Sqrt #2310));
  (2%positive, (X * X));
  (3%positive, (#1 - $2));
  (4%positive, (Sqrt $3));
  (6%positive, ($2 * $2));
  (9%positive, (Neg $3));
  (13%positive, ($9 * $9))], ((((($1 * $4) * ((((#71530905600 * $6) * X) + (((#89413632000 * $2) * $9) * X)) + ((#13412044800 * $13) * X))) * X) / #95374540800) - (((($1 * $4) * $3) * (((#536481792000 * $6) + ((#321889075200 * $9) * $2)) + (#13412044800 * $13))) / #286123622400))).
(** source/ass_leg_function.cc 1878-1898 *)
Definition P_8_4 : prog := ([(1%positive, (Sqrt #154));
  (2%positive, (X * X));
  (3%positive, (#1 - $2));
  (4%positive, ($3 * $3));
  (6%positive, ($2 * $2));
  (8%positive, (Neg $3));
  (11%positive, ($8 * $8))], ((($1 * $4) * (((#536481792000 * $6) + ((#321889075200 * $8) * $2)) + (#13412044800 * $11))) / #572247244800)).
(** source/ass_leg_function.cc 1903-1926 *)
Definition P_8_4_Deriv : prog := ([(1%positive, (Sqrt #154));
  (2%positive, (X * X));
  (3%positive, (#1 - $2));
  (5%positive, ($2 * $2));
  (7%positive, (Neg $3));
  (10%positive, ($7 * $7));
  (16%positive, ($3 * $3))], ((((((Neg $1) * $3) * (((#536481792000 * $5) + ((#321889075200 * $7) * $2)) + (#13412044800 * $10))) * X) / #143061811200) + ((($1 * $16) * (((#2789705318400 * $2) * X) + ((#697426329600 * $7) * X))) / #572247244800))).
(** source/ass_leg_function.cc 1931-1946 *)
Definition P_8_5 : prog := ([(1%positive, (Sqrt #2002));
  (2%positive, (X * X));
  (3%positive, (#1 - $2));
  (4%positive, ($3 * $3));
  (5%positive, (Sqrt $3))], (((((Neg $1) * $5) * $4) * (((#2789705318400 * $2) * X) - ((#697426329600 * $3) * X))) / #14878428364800)).
(** source/ass_leg_function.cc 1951-1968 *)
Definition P_8_5_Deriv : prog := ([(1%positive, (Sqrt #2002));
  (2%positive, (X * X));
  (3%positive, (#1 - $2));
  (4%positive, (Sqrt $3));
  (16%positive, ($3 * $3))], (((((($1 * $4) * $3) * (((#2789705318400 * $2) * X) - ((#697426329600 * $3) * X))) * X) / #2975685672960) - (((($1 * $4) * $16) * ((#10461394944000 * $2) - #697426329600)) / #14878428364800))).
(** source/ass_leg_function.cc 1973-1985 *)
Definition P_8_6 : prog := ([(1%positive, (Sqrt #429));
  (2%positive, (X * X));
  (3%positive, (#1 - $2));
  (4%positive, ($3 * $3))], (((($1 * $4) * $3) * ((#10461394944000 * $2) - #697426329600)) / #44635285094400)).
(** source/ass_leg_function.cc 1990-2003 *)
Definition P_8_6_Deriv : prog := ([(1%positive, (Sqrt #429));
  (2%positive, (X * X));
  (3%positive, (#1 - $2));
  (4%positive, ($3 * $3))], ((((((Neg $1) * $4) * ((#10461394944000 * $2) - #697426329600)) * X) / #7439214182400) + (((((#15 / #32) * $1) * $4) * $3) * X))).
(** source/ass_leg_function.cc 2008-2021 *)
Definition P_8_7 : prog := ([(1%positive, (Sqrt #1430));
  (2%positive, (X * X));
  (3%positive, (#1 - $2));
  (4%positive, ($3 * $3));
  (6%positive, (Sqrt $3))], (((((((Neg #3) / #64) * $1) * $6) * $4) * $3) * X)).
(** source/ass_leg_function.cc 2026-2040 *)
Definition P_8_7_Deriv : prog := ([(1%positive, (Sqrt #1430));
  (2%positive, (X * X));
  (3%positive, (#1 - $2));
  (4%positive, ($3 * $3));
  (5%positive, (Sqrt $3))], ((((((#21 / #64) * $1) * $5) * $4) * $2) - (((((#3 / #64) * $1) * $5) * $4) * $3))).
(** source/ass_leg_function.cc 2045-2056 *)
Definition P_8_8 : prog := ([(1%positive, (Sqrt #1430));
  (2%positive, (X * X));
  (4%positive, (Pow2 (#1 - $2)));
  (5%positive, ($4 * $4))], (((#3 / #256) * $1) * $5)).
(** source/ass_leg_function.cc 2061-2072 *)
Definition P_8_8_Deriv : prog := ([(1%positive, (Sqrt #1430));
  (2%positive, (X * X));
  (3%positive, (#1 - $2));
  (4%positive, ($3 * $3))], ((((((Neg #3) / #32) * $1) * $4) * $3) * X)).
(** source/ass_leg_function.cc 2075-2093 *)
Definition P_9_0 : prog := ([(1%positive, (X * X));
  (2%positive, ($1 * $1));
  (3%positive, ($2 * $2));
  (5%positive, ($1 - #1));
  (6%positive, ($1 * X));
  (10%positive, ($5 * $5));
  (17%positive, ($10 * $10))], ((((($3 * X) + (((#18 * $5) * $2) * $6)) + ((((#189 / #4) * $10) * $2) * X)) + ((((#105 / #4) * $10) * $5) * $6)) + (((#315 / #128) * $17) * X))).
(** source/ass_leg_function.cc 2096-2112 *)
Definition P_9_0_Deriv : prog := ([(1%positive, (X * X));
  (2%positive, ($1 * $1));
  (3%positive, ($2 * $2));
  (5%positive, ($1 - #1));
  (9%positive, ($5 * $5));
  (15%positive, ($9 * $9))], (((((#45 * $3) + (((#315 * $5) * $2) * $1)) + (((#1575 / #4) * $9) * $2)) + ((((#1575 / #16) * $9) * $5) * $1)) + ((#315 / #128) * $15))).
(** source/ass_leg_function.cc 2117-2142 *)
Definition P_9_1 : prog := ([(1%positive, (Sqrt #10));
  (2%positive, (X * X));
  (3%positive, (#1 - $2));
  (4%positive, (Sqrt $3));
  (6%positive, ($2 * $2));
  (7%positive, ($6 * $6));
  (9%positive, (Neg $3));
  (13%positive, ($9 * $9));
  (19%positive, ($13 * $13))], ((((Neg $1) * $4) * (((((#8360755200 * $7) + (((#58525286400 * $9) * $6) * $2)) + ((#73156608000 * $13) * $6)) + (((#18289152000 * $13) * $9) * $2)) + (#457228800 * $19))) / #5573836800)).
(** source/ass_leg_function.cc 2147-2180 *)
Definition P_9_1_Deriv : prog := ([(1%positive, (Sqrt #10));
  (2%positive, (X * X));
  (3%positive, (#1 - $2));
  (4%positive, (Sqrt $3));
  (7%positive, ($2 * $2));
  (8%positive, ($7 * $7));
  (10%positive, (Neg $3));
  (14%positive, ($10 * $10));
  (17%positive, ($14 * $10));
  (20%positive, ($14 * $14));
  (26%positive, ($2 * X))], ((((($1 / $4) * (((((#8360755200 * $8) + (((#58525286400 * $10) * $7) * $2)) + ((#73156608000 * $14) * $7)) + ((#18289152000 * $17) * $2)) + (#457228800 * $20))) * X) / #5573836800) - ((($1 * $4) * (((((#183936614400 * $7) * $26) + (((#643778150400 * $10) * $7) * X)) + ((#402361344000 * $14) * $26)) + ((#40236134400 * $17) * X))) / #5573836800))).
(** source/ass_leg_function.cc 2185-2205 *)
Definition P_9_2 : prog := ([(1%positive, (Sqrt #55));
  (2%positive, (X * X));
  (3%positive, (#1 - $2));
  (5%positive, ($2 * X));
  (6%positive, ($2 * $2));
  (9%positive, (Neg $3));
  (13%positive, ($9 * $9))], ((($1 * $3) * (((((#183936614400 * $6) * $5) + (((#643778150400 * $9) * $6) * X)) + ((#402361344000 * $13) * $5)) + (((#40236134400 * $13) * $9) * X))) / #122624409600)).
(** source/ass_leg_function.cc 2210-2234 *)
Definition P_9_2_Deriv : prog := ([(1%positive, (Sqrt #55));
  (3%positive, (X * X));
  (4%positive, ($3 * X));
  (5%positive, ($3 * $3));
  (8%positive, ($3 - #1));
  (12%positive, ($8 * $8));
  (15%positive, ($12 * $8))], (((((Neg $1) * X) * (((((#183936614400 * $5) * $4) + (((#643778150400 * $8) * $5) * X)) + ((#402361344000 * $12) * $4)) + ((#40236134400 * $15) * X))) / #61312204800) - ((($1 * $8) * (((((#2575112601600 * $5) * $3) + ((#4828336128000 * $8) * $5)) + ((#1448500838400 * $12) * $3)) + (#40236134400 * $15))) / #122624409600))).
(** source/ass_leg_function.cc 2239-2259 *)
Definition P_9_3 : prog := ([(1%positive, (Sqrt #1155));
  (2%positive, (X * X));
  (3%positive, (#1 - $2));
  (4%positive, (Sqrt $3));
  (7%positive, ($2 * $2));
  (10%positive, (Neg $3));
  (13%positive, ($10 * $10))], (((((Neg $1) * $4) * $3) * (((((#2575112601600 * $7) * $2) + ((#4828336128000 * $10) * $7)) + ((#1448500838400 * $13) * $2)) + ((#40236134400 * $13) * $10))) / #5150225203200)).
(** source/ass_leg_function.cc 2264-2288 *)
Definition P_9_3_Deriv : prog := ([(1%positive, (Sqrt #1155));
  (2%positive, (X * X));
  (3%positive, (#1 - $2));
  (4%positive, (Sqrt $3));
  (6%positive, ($2 * $2));
  (9%positive, (Neg $3));
  (12%positive, ($9 * $9))], ((((($1 * $4) * (((((#2575112601600 * $6) * $2) + ((#4828336128000 * $9) * $6)) + ((#1448500838400 * $12) * $2)) + ((#40236134400 * $12) * $9))) * X) / #1716741734400) - (((($1 * $4) * $3) * ((((#25107347865600 * $6) * X) + (((#25107347865600 * $9) * $2) * X)) + ((#3138418483200 * $12) * X))) / #5150225203200))).
(** source/ass_leg_function.cc 2293-2313 *)
Definition P_9_4 : prog := ([(1%positive, (Sqrt #10010));
  (2%positive, (X * X));
  (3%positive, (#1 - $2));
  (4%positive, ($3 * $3));
  (6%positive, ($2 * $2));
  (9%positive, (Neg $3));
  (13%positive, ($9 * $9))], ((($1 * $4) * ((((#25107347865600 * $6) * X) + (((#25107347865600 * $9) * $2) * X)) + ((#3138418483200 * $13) * X))) / #133905855283200)).
(** source/ass_leg_function.cc 2318-2342 *)
Definition P_9_4_Deriv : prog := ([(1%positive, (Sqrt #10010));
  (2%positive, (X * X));
  (3%positive, (#1 - $2));
  (5%positive, ($2 * $2));
  (8%positive, (Neg $3));
  (12%positive, ($8 * $8));
  (19%positive, ($3 * $3))], ((((((Neg $1) * $3) * ((((#25107347865600 * $5) * X) + (((#25107347865600 * $8) * $2) * X)) + ((#3138418483200 * $12) * X))) * X) / #33476463820800) + ((($1 * $19) * (((#175751435059200 * $5) + ((#87875717529600 * $2) * $8)) + (#3138418483200 * $12))) / #133905855283200))).
(** source/ass_leg_function.cc 2347-2369 *)
Definition P_9_5 : prog := ([(1%positive, (Sqrt #143));
  (2%positive, (X * X));
  (3%positive, (#1 - $2));
  (4%positive, ($3 * $3));
  (5%positive, (Sqrt $3));
  (8%positive, ($2 * $2));
  (10%positive, (Neg $3));
  (13%positive, ($10 * $10))], (((((Neg $1) * $5) * $4) * (((#175751435059200 * $8) + ((#87875717529600 * $10) * $2)) + (#3138418483200 * $13))) / #133905855283200)).
(** source/ass_leg_function.cc 2374-2399 *)
Definition P_9_5_Deriv : prog := ([(1%positive, (Sqrt #143));
  (2%positive, (X * X));
  (3%positive, (#1 - $2));
  (4%positive, (Sqrt $3));
  (7%positive, ($2 * $2));
  (9%positive, (Neg $3));
  (12%positive, ($9 * $9));
  (18%positive, ($3 * $3))], (((((($1 * $4) * $3) * (((#175751435059200 * $7) + ((#87875717529600 * $9) * $2)) + (#3138418483200 * $12))) * X) / #26781171056640) - (((($1 * $4) * $18) * (((#878757175296000 * $2) * X) + ((#188305108992000 * $9) * X))) / #133905855283200))).
(** source/ass_leg_function.cc 2404-2417 *)
Definition P_9_6 : prog := ([(1%positive, (Sqrt #2145));
  (2%positive, (X * X));
  (3%positive, (#1 - $2));
  (4%positive, ($3 * $3))], (((($1 * $4) * $3) * (((#878757175296000 * $2) * X) - ((#188305108992000 * $3) * X))) / #4017175658496000)).
(** source/ass_leg_function.cc 2422-2437 *)
Definition P_9_6_Deriv : prog := ([(1%positive, (Sqrt #2145));
  (2%positive, (X * X));
  (3%positive, (#1 - $2));
  (4%positive, ($3 * $3))], ((((((Neg $1) * $4) * (((#878757175296000 * $2) * X) - ((#188305108992000 * $3) * X))) * X) / #669529276416000) + (((($1 * $4) * $3) * ((#3201186852864000 * $2) - #188305108992000)) / #4017175658496000))).
(** source/ass_leg_function.cc 2442-2457 *)
Definition P_9_7 : prog := ([(1%positive, (Sqrt #715));
  (2%positive, (X * X));
  (3%positive, (#1 - $2));
  (4%positive, ($3 * $3));
  (6%positive, (Sqrt $3))], ((((((Neg $1) * $6) * $4) * $3) * ((#3201186852864000 * $2) - #188305108992000)) / #16068702633984000)).
(** source/ass_leg_function.cc 2462-2477 *)
Definition P_9_7_Deriv : prog := ([(1%positive, (Sqrt #715));
  (2%positive, (X * X));
  (3%positive, (#1 - $2));
  (4%positive, ($3 * $3));
  (5%positive, (Sqrt $3))], (((((($1 * $5) * $4) * ((#3201186852864000 * $2) - #188305108992000)) * X) / #2295528947712000) - ((((((#51 / #128) * $1) * $5) * $4) * $3) * X))).
(** source/ass_leg_function.cc 2482-2493 *)
Definition P_9_8 : prog := ([(1%positive, (Sqrt #24310));
  (2%positive, (X * X));
  (4%positive, (Pow2 (#1 - $2)));
  (5%positive, ($4 * $4))], ((((#3 / #256) * $1) * $5) * X)).
(** source/ass_leg_function.cc 2498-2511 *)
Definition P_9_8_Deriv : prog := ([(1%positive, (Sqrt #24310));
  (2%positive, (X * X));
  (3%positive, (#1 - $2));
  (4%positive, ($3 * $3));
  (9%positive, ($4 * $4))], (((((((Neg #3) / #32) * $1) * $4) * $3) * $2) + (((#3 / #256) * $1) * $9))).
(** source/ass_leg_function.cc 2516-2531 *)
Definition P_9_9 : prog := ([(1%positive, (Sqrt #12155));
  (2%positive, (X * X));
  (3%positive, (#1 - $2));
  (4%positive, ($3 * $3));
  (5%positive, ($4 * $4));
  (6%positive, (Sqrt $3))], ((((Neg $1) * $6) * $5) / #256)).
(** source/ass_leg_function.cc 2536-2549 *)
Definition P_9_9_Deriv : prog := ([(1%positive, (Sqrt #12155));
  (2%positive, (X * X));
  (3%positive, (#1 - $2));
  (4%positive, ($3 * $3));
  (6%positive, (Sqrt $3))], ((((((#9 / #256) * $1) * $6) * $4) * $3) * X)).
(** source/ass_leg_function.cc 2552-2569 *)
Definition P_10_0 : prog := ([(1%positive, (X * X));
  (2%positive, ($1 * $1));
  (3%positive, ($2 * $2));
  (5%positive, ($1 - #1));
  (8%positive, ($5 * $5));
  (15%positive, ($8 * $8))], (((((($3 * $1) + (((#45 / #2) * $3) * $5)) + ((((#315 / #4) * $8) * $2) * $1)) + ((((#525 / #8) * $8) * $5) * $2)) + (((#1575 / #128) * $15) * $1)) + (((#63 / #256) * $15) * $5))).
(** source/ass_leg_function.cc 2572-2591 *)
Definition P_10_0_Deriv : prog := ([(1%positive, (X * X));
  (2%positive, ($1 * $1));
  (3%positive, ($2 * $2));
  (6%positive, ($1 - #1));
  (7%positive, ($1 * X));
  (11%positive, ($6 * $6));
  (18%positive, ($11 * $11))], ((((((#55 * $3) * X) + (((#495 * $6) * $2) * $7)) + ((((#3465 / #4) * $11) * $2) * X)) + ((((#5775 / #16) * $11) * $6) * $7)) + (((#3465 / #128) * $18) * X))).
(** source/ass_leg_function.cc 2596-2623 *)
Definition P_10_1 : prog := ([(1%positive, (Sqrt #110));
  (2%positive, (X * X));
  (3%positive, (#1 - $2));
  (4%positive, (Sqrt $3));
  (6%positive, ($2 * $2));
  (7%positive, ($6 * $6));
  (10%positive, (Neg $3));
  (11%positive, ($2 * X));
  (15%positive, ($10 * $10));
  (22%positive, ($15 * $15))], ((((Neg $1) * $4) * ((((((#204374016000 * $7) * X) + (((#1839366144000 * $10) * $6) * $11)) + (((#3218890752000 * $15) * $6) * X)) + (((#1341204480000 * $15) * $10) * $11)) + ((#100590336000 * $22) * X))) / #408748032000)).
(** source/ass_leg_function.cc 2628-2662 *)
Definition P_10_1_Deriv : prog := ([(1%positive, (Sqrt #110));
  (2%positive, (X * X));
  (3%positive, (#1 - $2));
  (4%positive, (Sqrt $3));
  (7%positive, ($2 * $2));
  (8%positive, ($7 * $7));
  (11%positive, (Neg $3));
  (12%positive, ($2 * X));
  (16%positive, ($11 * $11));
  (20%positive, ($16 * $11));
  (23%positive, ($16 * $16))], ((((($1 / $4) * ((((((#204374016000 * $8) * X) + (((#1839366144000 * $11) * $7) * $12)) + (((#3218890752000 * $16) * $7) * X)) + ((#1341204480000 * $20) * $12)) + ((#100590336000 * $23) * X))) * X) / #408748032000) - ((($1 * $4) * (((((#5518098432000 * $8) + (((#25751126016000 * $11) * $7) * $2)) + ((#24141680640000 * $16) * $7)) + ((#4828336128000 * $20) * $2)) + (#100590336000 * $23))) / #408748032000))).
(** source/ass_leg_function.cc 2667-2690 *)
Definition P_10_2 : prog := ([(1%positive, (Sqrt #330));
  (2%positive, (X * X));
  (3%positive, (#1 - $2));
  (5%positive, ($2 * $2));
  (6%positive, ($5 * $5));
  (8%positive, (Neg $3));
  (12%positive, ($8 * $8));
  (18%positive, ($12 * $12))], ((($1 * $3) * (((((#5518098432000 * $6) + (((#25751126016000 * $8) * $5) * $2)) + ((#24141680640000 * $12) * $5)) + (((#4828336128000 * $12) * $8) * $2)) + (#100590336000 * $18))) / #7357464576000)).
(** source/ass_leg_function.cc 2695-2725 *)
Definition P_10_2_Deriv : prog := ([(1%positive, (Sqrt #330));
  (3%positive, (X * X));
  (4%positive, ($3 * $3));
  (5%positive, ($4 * $4));
  (7%positive, ($3 - #1));
  (11%positive, ($7 * $7));
  (14%positive, ($11 * $7));
  (17%positive, ($11 * $11));
  (24%positive, ($3 * X))], (((((Neg $1) * X) * (((((#5518098432000 * $5) + (((#25751126016000 * $7) * $4) * $3)) + ((#24141680640000 * $11) * $4)) + ((#4828336128000 * $14) * $3)) + (#100590336000 * $17))) / #3678732288000) - ((($1 * $7) * (((((#95647039488000 * $4) * $24) + (((#251073478656000 * $7) * $4) * X)) + ((#125536739328000 * $11) * $24)) + ((#10461394944000 * $14) * X))) / #7357464576000))).
(** source/ass_leg_function.cc 2730-2753 *)
Definition P_10_3 : prog := ([(1%positive, (Sqrt #2145));
  (2%positive, (X * X));
  (3%positive, (#1 - $2));
  (4%positive, (Sqrt $3));
  (7%positive, ($2 * X));
  (8%positive, ($2 * $2));
  (11%positive, (Neg $3));
  (15%positive, ($11 * $11))], (((((Neg $1) * $4) * $3) * (((((#95647039488000 * $8) * $7) + (((#251073478656000 * $11) * $8) * X)) + ((#125536739328000 * $15) * $7)) + (((#10461394944000 * $15) * $11) * X))) / #191294078976000)).
(** source/ass_leg_function.cc 2758-2787 *)
Definition P_10_3_Deriv : prog := ([(1%positive, (Sqrt #2145));
  (2%positive, (X * X));
  (3%positive, (#1 - $2));
  (4%positive, (Sqrt $3));
  (6%positive, ($2 * X));
  (7%positive, ($2 * $2));
  (10%positive, (Neg $3));
  (14%positive, ($10 * $10));
  (17%positive, ($14 * $10))], ((((($1 * $4) * (((((#95647039488000 * $7) * $6) + (((#251073478656000 * $10) * $7) * X)) + ((#125536739328000 * $14) * $6)) + ((#10461394944000 * $17) * X))) * X) / #63764692992000) - (((($1 * $4) * $3) * (((((#1171676233728000 * $7) * $2) + ((#1757514350592000 * $10) * $7)) + ((#439378587648000 * $14) * $2)) + (#10461394944000 * $17))) / #191294078976000))).
(** source/ass_leg_function.cc 2792-2812 *)
Definition P_10_4 : prog := ([(1%positive, (Sqrt #4290));
  (2%positive, (X * X));
  (3%positive, (#1 - $2));
  (4%positive, ($3 * $3));
  (6%positive, ($2 * $2));
  (9%positive, (Neg $3));
  (12%positive, ($9 * $9))], ((($1 * $4) * (((((#1171676233728000 * $6) * $2) + ((#1757514350592000 * $9) * $6)) + ((#439378587648000 * $12) * $2)) + ((#10461394944000 * $12) * $9))) / #2678117105664000)).
(** source/ass_leg_function.cc 2817-2842 *)
Definition P_10_4_Deriv : prog := ([(1%positive, (Sqrt #4290));
  (2%positive, (X * X));
  (3%positive, (#1 - $2));
  (5%positive, ($2 * $2));
  (8%positive, (Neg $3));
  (11%positive, ($8 * $8));
  (20%positive, ($3 * $3))], ((((((Neg $1) * $3) * (((((#1171676233728000 * $5) * $2) + ((#1757514350592000 * $5) * $8)) + ((#439378587648000 * $11) * $2)) + ((#10461394944000 * $11) * $8))) * X) / #669529276416000) + ((($1 * $20) * ((((#10545086103552000 * $5) * X) + (((#8787571752960000 * $8) * $2) * X)) + ((#941525544960000 * $11) * X))) / #2678117105664000))).
(** source/ass_leg_function.cc 2847-2870 *)
Definition P_10_5 : prog := ([(1%positive, (Sqrt #429));
  (2%positive, (X * X));
  (3%positive, (#1 - $2));
  (4%positive, ($3 * $3));
  (5%positive, (Sqrt $3));
  (8%positive, ($2 * $2));
  (11%positive, (Neg $3));
  (15%positive, ($11 * $11))], (((((Neg $1) * $5) * $4) * ((((#10545086103552000 * $8) * X) + (((#8787571752960000 * $11) * $2) * X)) + ((#941525544960000 * $15) * X))) / #8034351316992000)).
(** source/ass_leg_function.cc 2875-2902 *)
Definition P_10_5_Deriv : prog := ([(1%positive, (Sqrt #429));
  (2%positive, (X * X));
  (3%positive, (#1 - $2));
  (4%positive, (Sqrt $3));
  (7%positive, ($2 * $2));
  (10%positive, (Neg $3));
  (14%positive, ($10 * $10));
  (21%positive, ($3 * $3))], (((((($1 * $4) * $3) * ((((#10545086103552000 * $7) * X) + (((#8787571752960000 * $10) * $2) * X)) + ((#941525544960000 * $14) * X))) * X) / #1606870263398400) - (((($1 * $4) * $21) * (((#70300574023680000 * $7) + ((#30128817438720000 * $10) * $2)) + (#941525544960000 * $14))) / #8034351316992000))).
(** source/ass_leg_function.cc 2907-2927 *)
Definition P_10_6 : prog := ([(1%positive, (Sqrt #2145));
  (2%positive, (X * X));
  (3%positive, (#1 - $2));
  (4%positive, ($3 * $3));
  (7%positive, ($2 * $2));
  (9%positive, (Neg $3));
  (12%positive, ($9 * $9))], (((($1 * $4) * $3) * (((#70300574023680000 * $7) + ((#30128817438720000 * $9) * $2)) + (#941525544960000 * $12))) / #160687026339840000)).
(** source/ass_leg_function.cc 2932-2956 *)
Definition P_10_6_Deriv : prog := ([(1%positive, (Sqrt #2145));
  (2%positive, (X * X));
  (3%positive, (#1 - $2));
  (4%positive, ($3 * $3));
  (6%positive, ($2 * $2));
  (8%positive, (Neg $3));
  (11%positive, ($8 * $8))], ((((((Neg $1) * $4) * (((#70300574023680000 * $6) + ((#30128817438720000 * $2) * $8)) + (#941525544960000 * $11))) * X) / #26781171056640000) + (((($1 * $4) * $3) * (((#341459930972160000 * $2) * X) + ((#64023737057280000 * $8) * X))) / #160687026339840000))).
(** source/ass_leg_function.cc 2961-2976 *)
Definition P_10_7 : prog := ([(1%positive, (Sqrt #36465));
  (2%positive, (X * X));
  (3%positive, (#1 - $2));
  (4%positive, ($3 * $3));
  (6%positive, (Sqrt $3))], ((((((Neg $1) * $6) * $4) * $3) * (((#341459930972160000 * $2) * X) - ((#64023737057280000 * $3) * X))) / #5463358895554560000)).
(** source/ass_leg_function.cc 2981-3000 *)
Definition P_10_7_Deriv : prog := ([(1%positive, (Sqrt #36465));
  (2%positive, (X * X));
  (3%positive, (#1 - $2));
  (4%positive, ($3 * $3));
  (5%positive, (Sqrt $3))], (((((($1 * $5) * $4) * (((#341459930972160000 * $2) * X) - ((#64023737057280000 * $3) * X))) * X) / #780479842222080000) - ((((($1 * $5) * $4) * $3) * ((Neg #64023737057280000) + (#1216451004088320000 * $2))) / #5463358895554560000))).
(** source/ass_leg_function.cc 3005-3017 *)
Definition P_10_8 : prog := ([(1%positive, (Sqrt #24310));
  (2%positive, (X * X));
  (4%positive, (Pow2 (#1 - $2)));
  (5%positive, ($4 * $4))], ((($1 * $5) * ((Neg #64023737057280000) + (#1216451004088320000 * $2))) / #32780153373327360000)).
(** source/ass_leg_function.cc 3022-3038 *)
Definition P_10_8_Deriv : prog := ([(1%positive, (Sqrt #24310));
  (2%positive, (X * X));
  (3%positive, (#1 - $2));
  (4%positive, ($3 * $3));
  (12%positive, ($4 * $4))], (((((((Neg $1) * $4) * $3) * ((Neg #64023737057280000) + (#1216451004088320000 * $2))) * X) / #4097519171665920000) + ((((#19 / #256) * $1) * $12) * X))).
(** source/ass_leg_function.cc 3043-3058 *)
Definition P_10_9 : prog := ([(1%positive, (Sqrt #230945));
  (2%positive, (X * X));
  (3%positive, (#1 - $2));
  (4%positive, ($3 * $3));
  (5%positive, ($4 * $4));
  (6%positive, (Sqrt $3))], (((((Neg $1) * $6) * $5) * X) / #256)).
(** source/ass_leg_function.cc 3063-3078 *)
Definition P_10_9_Deriv : prog := ([(1%positive, (Sqrt #230945));
  (2%positive, (X * X));
  (3%positive, (#1 - $2));
  (4%positive, ($3 * $3));
  (6%positive, (Sqrt $3));
  (11%positive, ($4 * $4))], (((((((#9 / #256) * $1) * $6) * $4) * $3) * $2) - ((($1 * $6) * $11) / #256))).
(** source/ass_leg_function.cc 3083-3096 *)
Definition P_10_10 : prog := ([(1%positive, (Sqrt #46189));
  (2%positive, (X * X));
  (3%positive, (#1 - $2));
  (4%positive, ($3 * $3));
  (5%positive, ($4 * $4))], ((($1 * $5) * $3) / #512)).
(** source/ass_leg_function.cc 3101-3112 *)
Definition P_10_10_Deriv : prog := ([(1%positive, (Sqrt #46189));
  (2%positive, (X * X));
  (4%positive, (Pow2 (#1 - $2)));
  (5%positive, ($4 * $4))], (((((Neg #5) / #256) * $1) * $5) * X)).
(** source/ass_leg_function.cc 3115-3135 *)
Definition P_11_0 : prog := ([(1%positive, (X * X));
  (2%positive, ($1 * X));
  (3%positive, ($1 * $1));
  (4%positive, ($3 * $3));
  (6%positive, ($1 - #1));
  (10%positive, ($6 * $6));
  (18%positive, ($10 * $10))], (((((($4 * $2) + ((((#55 / #2) * $6) * $4) * X)) + ((((#495 / #4) * $10) * $3) * $2)) + (((((#1155 / #8) * $10) * $6) * $3) * X)) + (((#5775 / #128) * $18) * $2)) + ((((#693 / #256) * $18) * $6) * X))).
(** source/ass_leg_function.cc 3138-3155 *)
Definition P_11_0_Deriv : prog := ([(1%positive, (X * X));
  (2%positive, ($1 * $1));
  (3%positive, ($2 * $2));
  (6%positive, ($1 - #1));
  (9%positive, ($6 * $6));
  (16%positive, ($9 * $9))], (((((((#66 * $3) * $1) + (((#1485 / #2) * $6) * $3)) + ((((#3465 / #2) * $9) * $2) * $1)) + ((((#17325 / #16) * $9) * $6) * $2)) + (((#10395 / #64) * $16) * $1)) + (((#693 / #256) * $16) * $6))).
(** source/ass_leg_function.cc 3160-3186 *)
Definition P_11_1 : prog := ([(1%positive, (Sqrt #33));
  (2%positive, (X * X));
  (3%positive, (#1 - $2));
  (4%positive, (Sqrt $3));
  (6%positive, ($2 * $2));
  (7%positive, ($6 * $6));
  (10%positive, (Neg $3));
  (13%positive, ($10 * $10));
  (20%positive, ($13 * $13))], ((((Neg $1) * $4) * (((((((#5395474022400 * $7) * $2) + ((#60699082752000 * $10) * $7)) + (((#141631193088000 * $13) * $6) * $2)) + (((#88519495680000 * $13) * $10) * $6)) + ((#13277924352000 * $20) * $2)) + ((#221298739200 * $20) * $10))) / #5395474022400)).
(** source/ass_leg_function.cc 3191-3226 *)
Definition P_11_1_Deriv : prog := ([(1%positive, (Sqrt #33));
  (2%positive, (X * X));
  (3%positive, (#1 - $2));
  (4%positive, (Sqrt $3));
  (7%positive, ($2 * $2));
  (8%positive, ($7 * $7));
  (11%positive, (Neg $3));
  (14%positive, ($11 * $11));
  (18%positive, ($14 * $11));
  (21%positive, ($14 * $14));
  (32%positive, ($2 * X))], ((((($1 / $4) * (((((((#5395474022400 * $8) * $2) + ((#60699082752000 * $11) * $8)) + (((#141631193088000 * $14) * $7) * $2)) + ((#88519495680000 * $18) * $7)) + ((#13277924352000 * $21) * $2)) + ((#221298739200 * $21) * $11))) * X) / #5395474022400) - ((($1 * $4) * ((((((#175352905728000 * $8) * X) + (((#1052117434368000 * $11) * $7) * $32)) + (((#1380904132608000 * $14) * $7) * X)) + ((#460301377536000 * $18) * $32)) + ((#28768836096000 * $21) * X))) / #5395474022400))).
(** source/ass_leg_function.cc 3231-3257 *)
Definition P_11_2 : prog := ([(1%positive, (Sqrt #4290));
  (2%positive, (X * X));
  (3%positive, (#1 - $2));
  (5%positive, ($2 * $2));
  (6%positive, ($5 * $5));
  (9%positive, (Neg $3));
  (10%positive, ($2 * X));
  (14%positive, ($9 * $9));
  (21%positive, ($14 * $14))], ((($1 * $3) * ((((((#175352905728000 * $6) * X) + (((#1052117434368000 * $9) * $5) * $10)) + (((#1380904132608000 * $14) * $5) * X)) + (((#460301377536000 * $14) * $9) * $10)) + ((#28768836096000 * $21) * X))) / #701411622912000)).
(** source/ass_leg_function.cc 3262-3293 *)
Definition P_11_2_Deriv : prog := ([(1%positive, (Sqrt #4290));
  (3%positive, (X * X));
  (4%positive, ($3 * $3));
  (5%positive, ($4 * $4));
  (8%positive, ($3 - #1));
  (9%positive, ($3 * X));
  (13%positive, ($8 * $8));
  (17%positive, ($13 * $8));
  (20%positive, ($13 * $13))], (((((Neg $1) * X) * ((((((#175352905728000 * $5) * X) + (((#1052117434368000 * $8) * $4) * $9)) + (((#1380904132608000 * $13) * $4) * X)) + ((#460301377536000 * $17) * $9)) + ((#28768836096000 * $20) * X))) / #350705811456000) - ((($1 * $8) * (((((#3682411020288000 * $5) + (((#12888438571008000 * $8) * $4) * $3)) + ((#9666328928256000 * $13) * $4)) + ((#1611054821376000 * $17) * $3)) + (#28768836096000 * $20))) / #701411622912000))).
(** source/ass_leg_function.cc 3298-3323 *)
Definition P_11_3 : prog := ([(1%positive, (Sqrt #15015));
  (2%positive, (X * X));
  (3%positive, (#1 - $2));
  (4%positive, (Sqrt $3));
  (7%positive, ($2 * $2));
  (8%positive, ($7 * $7));
  (10%positive, (Neg $3));
  (14%positive, ($10 * $10));
  (20%positive, ($14 * $14))], (((((Neg $1) * $4) * $3) * (((((#3682411020288000 * $8) + (((#12888438571008000 * $10) * $7) * $2)) + ((#9666328928256000 * $14) * $7)) + (((#1611054821376000 * $14) * $10) * $2)) + (#28768836096000 * $20))) / #14729644081152000)).
(** source/ass_leg_function.cc 3328-3363 *)
Definition P_11_3_Deriv : prog := ([(1%positive, (Sqrt #15015));
  (2%positive, (X * X));
  (3%positive, (#1 - $2));
  (4%positive, (Sqrt $3));
  (6%positive, ($2 * $2));
  (7%positive, ($6 * $6));
  (9%positive, (Neg $3));
  (13%positive, ($9 * $9));
  (16%positive, ($13 * $9));
  (19%positive, ($13 * $13));
  (27%positive, ($2 * X))], ((((($1 * $4) * (((((#3682411020288000 * $7) + (((#12888438571008000 * $9) * $6) * $2)) + ((#9666328928256000 * $13) * $6)) + ((#1611054821376000 * $16) * $2)) + (#28768836096000 * $19))) * X) / #4909881360384000) - (((($1 * $4) * $3) * (((((#55236165304320000 * $6) * $27) + (((#115995947139072000 * $9) * $6) * X)) + ((#48331644641280000 * $13) * $27)) + ((#3452260331520000 * $16) * X))) / #14729644081152000))).
(** source/ass_leg_function.cc 3368-3392 *)
Definition P_11_4 : prog := ([(1%positive, (Sqrt #2002));
  (2%positive, (X * X));
  (3%positive, (#1 - $2));
  (4%positive, ($3 * $3));
  (6%positive, ($2 * X));
  (7%positive, ($2 * $2));
  (10%positive, (Neg $3));
  (14%positive, ($10 * $10))], ((($1 * $4) * (((((#55236165304320000 * $7) * $6) + (((#115995947139072000 * $10) * $7) * X)) + ((#48331644641280000 * $14) * $6)) + (((#3452260331520000 * $14) * $10) * X))) / #58918576324608000)).
(** source/ass_leg_function.cc 3397-3427 *)
Definition P_11_4_Deriv : prog := ([(1%positive, (Sqrt #2002));
  (2%positive, (X * X));
  (3%positive, (#1 - $2));
  (5%positive, ($2 * X));
  (6%positive, ($2 * $2));
  (9%positive, (Neg $3));
  (13%positive, ($9 * $9));
  (16%positive, ($13 * $9));
  (23%positive, ($3 * $3))], ((((((Neg $1) * $3) * (((((#55236165304320000 * $6) * $5) + (((#115995947139072000 * $9) * $6) * X)) + ((#48331644641280000 * $13) * $5)) + ((#3452260331520000 * $16) * X))) * X) / #14729644081152000) + ((($1 * $23) * (((((#618645051408384000 * $6) * $2) + ((#773306314260480000 * $6) * $9)) + ((#165708495912960000 * $13) * $2)) + (#3452260331520000 * $16))) / #58918576324608000))).
(** source/ass_leg_function.cc 3432-3455 *)
Definition P_11_5 : prog := ([(1%positive, (Sqrt #286));
  (2%positive, (X * X));
  (3%positive, (#1 - $2));
  (4%positive, ($3 * $3));
  (5%positive, (Sqrt $3));
  (8%positive, ($2 * $2));
  (11%positive, (Neg $3));
  (14%positive, ($11 * $11))], (((((Neg $1) * $5) * $4) * (((((#618645051408384000 * $8) * $2) + ((#773306314260480000 * $11) * $8)) + ((#165708495912960000 * $14) * $2)) + ((#3452260331520000 * $14) * $11))) / #235674305298432000)).
(** source/ass_leg_function.cc 3460-3488 *)
Definition P_11_5_Deriv : prog := ([(1%positive, (Sqrt #286));
  (2%positive, (X * X));
  (3%positive, (#1 - $2));
  (4%positive, (Sqrt $3));
  (7%positive, ($2 * $2));
  (10%positive, (Neg $3));
  (13%positive, ($10 * $10));
  (22%positive, ($3 * $3))], (((((($1 * $4) * $3) * (((((#618645051408384000 * $7) * $2) + ((#773306314260480000 * $7) * $10)) + ((#165708495912960000 * $13) * $2)) + ((#3452260331520000 * $10) * $13))) * X) / #47134861059686400) - (((($1 * $4) * $22) * ((((#5258482936971264000 * $7) * X) + (((#3756059240693760000 * $10) * $2) * X)) + ((#352130553815040000 * $13) * X))) / #235674305298432000))).
(** source/ass_leg_function.cc 3493-3514 *)
Definition P_11_6 : prog := ([(1%positive, (Sqrt #7293));
  (2%positive, (X * X));
  (3%positive, (#1 - $2));
  (4%positive, ($3 * $3));
  (7%positive, ($2 * $2));
  (10%positive, (Neg $3));
  (14%positive, ($10 * $10))], (((($1 * $4) * $3) * ((((#5258482936971264000 * $7) * X) + (((#3756059240693760000 * $10) * $2) * X)) + ((#352130553815040000 * $14) * X))) / #12019389570220032000)).
(** source/ass_leg_function.cc 3519-3545 *)
Definition P_11_6_Deriv : prog := ([(1%positive, (Sqrt #7293));
  (2%positive, (X * X));
  (3%positive, (#1 - $2));
  (4%positive, ($3 * $3));
  (6%positive, ($2 * $2));
  (9%positive, (Neg $3));
  (13%positive, ($9 * $9))], ((((((Neg $1) * $4) * ((((#5258482936971264000 * $6) * X) + (((#3756059240693760000 * $9) * $2) * X)) + ((#352130553815040000 * $13) * X))) * X) / #2003231595036672000) + (((($1 * $4) * $3) * (((#33804533166243840000 * $6) + ((#12676699937341440000 * $9) * $2)) + (#352130553815040000 * $13))) / #12019389570220032000))).
(** source/ass_leg_function.cc 3550-3573 *)
Definition P_11_7 : prog := ([(1%positive, (Sqrt #72930));
  (2%positive, (X * X));
  (3%positive, (#1 - $2));
  (4%positive, ($3 * $3));
  (6%positive, (Sqrt $3));
  (9%positive, ($2 * $2));
  (11%positive, (Neg $3));
  (14%positive, ($11 * $11))], ((((((Neg $1) * $6) * $4) * $3) * (((#33804533166243840000 * $9) + ((#12676699937341440000 * $11) * $2)) + (#352130553815040000 * $14))) / #360581687106600960000)).
(** source/ass_leg_function.cc 3578-3605 *)
Definition P_11_7_Deriv : prog := ([(1%positive, (Sqrt #72930));
  (2%positive, (X * X));
  (3%positive, (#1 - $2));
  (4%positive, ($3 * $3));
  (5%positive, (Sqrt $3));
  (8%positive, ($2 * $2));
  (10%positive, (Neg $3));
  (13%positive, ($10 * $10))], (((((($1 * $5) * $4) * (((#33804533166243840000 * $8) + ((#12676699937341440000 * $10) * $2)) + (#352130553815040000 * $13))) * X) / #51511669586657280000) - ((((($1 * $5) * $4) * $3) * (((#160571532539658240000 * $2) * X) + ((#26761922089943040000 * $10) * X))) / #360581687106600960000))).
(** source/ass_leg_function.cc 3610-3626 *)
Definition P_11_8 : prog := ([(1%positive, (Sqrt #1385670));
  (2%positive, (X * X));
  (3%positive, (#1 - $2));
  (4%positive, ($3 * $3));
  (5%positive, ($4 * $4))], ((($1 * $5) * (((#160571532539658240000 * $2) * X) - ((#26761922089943040000 * $3) * X))) / #13702104110050836480000)).
(** source/ass_leg_function.cc 3631-3650 *)
Definition P_11_8_Deriv : prog := ([(1%positive, (Sqrt #1385670));
  (2%positive, (X * X));
  (3%positive, (#1 - $2));
  (4%positive, ($3 * $3));
  (16%positive, ($4 * $4))], (((((((Neg $1) * $4) * $3) * (((#160571532539658240000 * $2) * X) - ((#26761922089943040000 * $3) * X))) * X) / #1712763013756354560000) + ((($1 * $16) * ((#562000363888803840000 * $2) - #26761922089943040000)) / #13702104110050836480000))).
(** source/ass_leg_function.cc 3655-3672 *)
Definition P_11_9 : prog := ([(1%positive, (Sqrt #92378));
  (2%positive, (X * X));
  (3%positive, (#1 - $2));
  (4%positive, ($3 * $3));
  (5%positive, ($4 * $4));
  (6%positive, (Sqrt $3))], (((((Neg $1) * $6) * $5) * ((#562000363888803840000 * $2) - #26761922089943040000)) / #27404208220101672960000)).
(** source/ass_leg_function.cc 3677-3695 *)
Definition P_11_9_Deriv : prog := ([(1%positive, (Sqrt #92378));
  (2%positive, (X * X));
  (3%positive, (#1 - $2));
  (4%positive, ($3 * $3));
  (6%positive, (Sqrt $3));
  (14%positive, ($4 * $4))], ((((((($1 * $6) * $4) * $3) * ((#562000363888803840000 * $2) - #26761922089943040000)) * X) / #3044912024455741440000) - (((((#21 / #512) * $1) * $6) * $14) * X))).
(** source/ass_leg_function.cc 3700-3713 *)
Definition P_11_10 : prog := ([(1%positive, (Sqrt #969969));
  (2%positive, (X * X));
  (3%positive, (#1 - $2));
  (4%positive, ($3 * $3));
  (5%positive, ($4 * $4))], (((($1 * $5) * $3) * X) / #512)).
(** source/ass_leg_function.cc 3718-3731 *)
Definition P_11_10_Deriv : prog := ([(1%positive, (Sqrt #969969));
  (2%positive, (X * X));
  (3%positive, (#1 - $2));
  (4%positive, ($3 * $3));
  (5%positive, ($4 * $4))], ((((((Neg #5) / #256) * $1) * $5) * $2) + ((($1 * $5) * $3) / #512))).
(** source/ass_leg_function.cc 3736-3751 *)
Definition P_11_11 : prog := ([(1%positive, (Sqrt #176358));
  (2%positive, (X * X));
  (3%positive, (#1 - $2));
  (4%positive, ($3 * $3));
  (5%positive, ($4 * $4));
  (7%positive, (Sqrt $3))], (((((Neg $1) * $7) * $5) * $3) / #1024)).
(** source/ass_leg_function.cc 3756-3771 *)
Definition P_11_11_Deriv : prog := ([(1%positive, (Sqrt #176358));
  (2%positive, (X * X));
  (3%positive, (#1 - $2));
  (4%positive, ($3 * $3));
  (5%positive, ($4 * $4));
  (6%positive, (Sqrt $3))], (((((#11 / #1024) * $1) * $6) * $5) * X)).
(** source/ass_leg_function.cc 3774-3792 *)
Definition P_12_0 : prog := ([(1%positive, (X * X));
  (2%positive, ($1 * $1));
  (3%positive, ($2 * $2));
  (5%positive, ($1 - #1));
  (9%positive, ($5 * $5));
  (16%positive, ($9 * $9))], ((((((($3 * $2) + (((#33 * $5) * $3) * $1)) + (((#1485 / #8) * $9) * $3)) + (((((#1155 / #4) * $9) * $5) * $2) * $1)) + (((#17325 / #128) * $16) * $2)) + ((((#2079 / #128) * $16) * $5) * $1)) + (((#231 / #1024) * $16) * $9))).
(** source/ass_leg_function.cc 3795-3815 *)
Definition P_12_0_Deriv : prog := ([(1%positive, (X * X));
  (2%positive, ($1 * X));
  (3%positive, ($1 * $1));
  (4%positive, ($3 * $3));
  (7%positive, ($1 - #1));
  (11%positive, ($7 * $7));
  (19%positive, ($11 * $11))], (((((((#78 * $2) * $4) + ((((#2145 / #2) * $7) * $4) * X)) + ((((#6435 / #2) * $11) * $3) * $2)) + (((((#45045 / #16) * $11) * $7) * $3) * X)) + (((#45045 / #64) * $19) * $2)) + ((((#9009 / #256) * $19) * $7) * X))).
(** source/ass_leg_function.cc 3820-3849 *)
Definition P_12_1 : prog := ([(1%positive, (Sqrt #39));
  (2%positive, (X * X));
  (3%positive, (#1 - $2));
  (4%positive, (Sqrt $3));
  (6%positive, ($2 * X));
  (7%positive, ($2 * $2));
  (8%positive, ($7 * $7));
  (11%positive, (Neg $3));
  (15%positive, ($11 * $11));
  (23%positive, ($15 * $15))], ((((Neg $1) * $4) * (((((((#153035263180800 * $8) * $6) + (((#2104234868736000 * $11) * $8) * X)) + (((#6312704606208000 * $15) * $7) * $6)) + ((((#5523616530432000 * $15) * $11) * $7) * X)) + ((#1380904132608000 * $23) * $6)) + (((#69045206630400 * $23) * $11) * X))) / #153035263180800)).
(** source/ass_leg_function.cc 3854-3893 *)
Definition P_12_1_Deriv : prog := ([(1%positive, (Sqrt #39));
  (2%positive, (X * X));
  (3%positive, (#1 - $2));
  (4%positive, (Sqrt $3));
  (7%positive, ($2 * X));
  (8%positive, ($2 * $2));
  (9%positive, ($8 * $8));
  (12%positive, (Neg $3));
  (16%positive, ($12 * $12));
  (20%positive, ($16 * $12));
  (24%positive, ($16 * $16));
  (27%positive, ($24 * $12))], ((((($1 / $4) * (((((((#153035263180800 * $7) * $9) + (((#2104234868736000 * $9) * $12) * X)) + (((#6312704606208000 * $16) * $8) * $7)) + (((#5523616530432000 * $20) * $8) * X)) + ((#1380904132608000 * $24) * $7)) + ((#69045206630400 * $27) * X))) * X) / #153035263180800) - ((($1 * $4) * (((((((#5891857632460800 * $9) * $2) + ((#44188932243456000 * $12) * $9)) + (((#77330631426048000 * $16) * $8) * $2)) + ((#38665315713024000 * $20) * $8)) + ((#4833164464128000 * $24) * $2)) + (#69045206630400 * $27))) / #153035263180800))).
(** source/ass_leg_function.cc 3898-3922 *)
Definition P_12_2 : prog := ([(1%positive, (Sqrt #6006));
  (2%positive, (X * X));
  (3%positive, (#1 - $2));
  (5%positive, ($2 * $2));
  (6%positive, ($5 * $5));
  (9%positive, (Neg $3));
  (12%positive, ($9 * $9));
  (19%positive, ($12 * $12))], ((($1 * $3) * (((((((#5891857632460800 * $6) * $2) + ((#44188932243456000 * $9) * $6)) + (((#77330631426048000 * $12) * $5) * $2)) + (((#38665315713024000 * $12) * $9) * $5)) + ((#4833164464128000 * $19) * $2)) + ((#69045206630400 * $9) * $19))) / #23567430529843200)).
(** source/ass_leg_function.cc 3927-3960 *)
Definition P_12_2_Deriv : prog := ([(1%positive, (Sqrt #6006));
  (3%positive, (X * X));
  (4%positive, ($3 * $3));
  (5%positive, ($4 * $4));
  (8%positive, ($3 - #1));
  (11%positive, ($8 * $8));
  (15%positive, ($11 * $8));
  (18%positive, ($11 * $11));
  (30%positive, ($3 * X))], (((((Neg $1) * X) * (((((((#5891857632460800 * $5) * $3) + ((#44188932243456000 * $8) * $5)) + (((#77330631426048000 * $11) * $4) * $3)) + ((#38665315713024000 * $15) * $4)) + ((#4833164464128000 * $18) * $3)) + ((#69045206630400 * $18) * $8))) / #11783715264921600) - ((($1 * $8) * ((((((#147296440811520000 * $5) * X) + (((#662833983651840000 * $8) * $4) * $30)) + (((#695975682834432000 * $11) * $4) * X)) + ((#193326578565120000 * $15) * $30)) + ((#10356780994560000 * $18) * X))) / #23567430529843200))).
(** source/ass_leg_function.cc 3965-3994 *)
Definition P_12_3 : prog := ([(1%positive, (Sqrt #1001));
  (2%positive, (X * X));
  (3%positive, (#1 - $2));
  (4%positive, (Sqrt $3));
  (7%positive, ($2 * $2));
  (8%positive, ($7 * $7));
  (11%positive, (Neg $3));
  (12%positive, ($2 * X));
  (16%positive, ($11 * $11));
  (23%positive, ($16 * $16))], (((((Neg $1) * $4) * $3) * ((((((#147296440811520000 * $8) * X) + (((#662833983651840000 * $11) * $7) * $12)) + (((#695975682834432000 * $16) * $7) * X)) + (((#193326578565120000 * $16) * $11) * $12)) + ((#10356780994560000 * $23) * X))) / #117837152649216000)).
(** source/ass_leg_function.cc 3999-4036 *)
Definition P_12_3_Deriv : prog := ([(1%positive, (Sqrt #1001));
  (2%positive, (X * X));
  (3%positive, (#1 - $2));
  (4%positive, (Sqrt $3));
  (6%positive, ($2 * $2));
  (7%positive, ($6 * $6));
  (10%positive, (Neg $3));
  (11%positive, ($2 * X));
  (15%positive, ($10 * $10));
  (19%positive, ($15 * $10));
  (22%positive, ($15 * $15))], ((((($1 * $4) * ((((((#147296440811520000 * $7) * X) + (((#662833983651840000 * $10) * $6) * $11)) + (((#695975682834432000 * $15) * $6) * X)) + ((#193326578565120000 * $19) * $11)) + ((#10356780994560000 * $22) * X))) * X) / #39279050883072000) - (((($1 * $4) * $3) * (((((#2651335934607360000 * $7) + (((#7423740616900608000 * $10) * $6) * $2)) + ((#4639837885562880000 * $15) * $6)) + ((#662833983651840000 * $19) * $2)) + (#10356780994560000 * $22))) / #117837152649216000))).
(** source/ass_leg_function.cc 4041-4067 *)
Definition P_12_4 : prog := ([(1%positive, (Sqrt #1001));
  (2%positive, (X * X));
  (3%positive, (#1 - $2));
  (4%positive, ($3 * $3));
  (6%positive, ($2 * $2));
  (7%positive, ($6 * $6));
  (9%positive, (Neg $3));
  (13%positive, ($9 * $9));
  (19%positive, ($13 * $13))], ((($1 * $4) * (((((#2651335934607360000 * $7) + (((#7423740616900608000 * $9) * $6) * $2)) + ((#4639837885562880000 * $13) * $6)) + (((#662833983651840000 * $13) * $9) * $2)) + (#10356780994560000 * $19))) / #1414045831790592000)).
(** source/ass_leg_function.cc 4072-4108 *)
Definition P_12_4_Deriv : prog := ([(1%positive, (Sqrt #1001));
  (2%positive, (X * X));
  (3%positive, (#1 - $2));
  (5%positive, ($2 * $2));
  (6%positive, ($5 * $5));
  (8%positive, (Neg $3));
  (12%positive, ($8 * $8));
  (15%positive, ($12 * $8));
  (18%positive, ($12 * $12));
  (24%positive, ($3 * $3));
  (26%positive, ($2 * X))], ((((((Neg $1) * $3) * (((((#2651335934607360000 * $6) + (((#7423740616900608000 * $8) * $5) * $2)) + ((#4639837885562880000 * $12) * $5)) + ((#662833983651840000 * $15) * $2)) + (#10356780994560000 * $18))) * X) / #353511457947648000) + ((($1 * $24) * (((((#36058168710660096000 * $5) * $26) + (((#63101795243655168000 * $8) * $5) * X)) + ((#22536355444162560000 * $12) * $26)) + ((#1408522215260160000 * $15) * X))) / #1414045831790592000))).
(** source/ass_leg_function.cc 4113-4139 *)
Definition P_12_5 : prog := ([(1%positive, (Sqrt #34034));
  (2%positive, (X * X));
  (3%positive, (#1 - $2));
  (4%positive, ($3 * $3));
  (5%positive, (Sqrt $3));
  (8%positive, ($2 * X));
  (9%positive, ($2 * $2));
  (12%positive, (Neg $3));
  (16%positive, ($12 * $12))], (((((Neg $1) * $5) * $4) * (((((#36058168710660096000 * $9) * $8) + (((#63101795243655168000 * $12) * $9) * X)) + ((#22536355444162560000 * $16) * $8)) + (((#1408522215260160000 * $16) * $12) * X))) / #96155116561760256000)).
(** source/ass_leg_function.cc 4144-4178 *)
Definition P_12_5_Deriv : prog := ([(1%positive, (Sqrt #34034));
  (2%positive, (X * X));
  (3%positive, (#1 - $2));
  (4%positive, (Sqrt $3));
  (7%positive, ($2 * X));
  (8%positive, ($2 * $2));
  (11%positive, (Neg $3));
  (15%positive, ($11 * $11));
  (18%positive, ($15 * $11));
  (25%positive, ($3 * $3))], (((((($1 * $4) * $3) * (((((#36058168710660096000 * $8) * $7) + (((#63101795243655168000 * $11) * $8) * X)) + ((#22536355444162560000 * $15) * $7)) + ((#1408522215260160000 * $18) * X))) * X) / #19231023312352051200) - (((($1 * $4) * $25) * (((((#378610771461931008000 * $8) * $2) + ((#405654397994926080000 * $11) * $8)) + ((#76060199624048640000 * $2) * $15)) + (#1408522215260160000 * $18))) / #96155116561760256000))).
(** source/ass_leg_function.cc 4183-4205 *)
Definition P_12_6 : prog := ([(1%positive, (Sqrt #2431));
  (2%positive, (X * X));
  (3%positive, (#1 - $2));
  (4%positive, ($3 * $3));
  (7%positive, ($2 * $2));
  (10%positive, (Neg $3));
  (13%positive, ($10 * $10))], (((($1 * $4) * $3) * (((((#378610771461931008000 * $7) * $2) + ((#405654397994926080000 * $10) * $7)) + ((#76060199624048640000 * $13) * $2)) + ((#1408522215260160000 * $13) * $10))) / #288465349685280768000)).
(** source/ass_leg_function.cc 4210-4237 *)
Definition P_12_6_Deriv : prog := ([(1%positive, (Sqrt #2431));
  (2%positive, (X * X));
  (3%positive, (#1 - $2));
  (4%positive, ($3 * $3));
  (6%positive, ($2 * $2));
  (9%positive, (Neg $3));
  (12%positive, ($9 * $9))], ((((((Neg $1) * $4) * (((((#378610771461931008000 * $2) * $6) + ((#405654397994926080000 * $9) * $6)) + ((#76060199624048640000 * $12) * $2)) + ((#1408522215260160000 * $12) * $9))) * X) / #48077558280880128000) + (((($1 * $4) * $3) * ((((#3082973424761438208000 * $6) * X) + (((#1926858390475898880000 * $9) * $2) * X)) + ((#160571532539658240000 * $12) * X))) / #288465349685280768000))).
(** source/ass_leg_function.cc 4242-4265 *)
Definition P_12_7 : prog := ([(1%positive, (Sqrt #277134));
  (2%positive, (X * X));
  (3%positive, (#1 - $2));
  (4%positive, ($3 * $3));
  (6%positive, (Sqrt $3));
  (9%positive, ($2 * $2));
  (12%positive, (Neg $3));
  (16%positive, ($12 * $12))], ((((((Neg $1) * $6) * $4) * $3) * ((((#3082973424761438208000 * $9) * X) + (((#1926858390475898880000 * $12) * $2) * X)) + ((#160571532539658240000 * $16) * X))) / #32885049864122007552000)).
(** source/ass_leg_function.cc 4270-4298 *)
Definition P_12_7_Deriv : prog := ([(1%positive, (Sqrt #277134));
  (2%positive, (X * X));
  (3%positive, (#1 - $2));
  (4%positive, ($3 * $3));
  (5%positive, (Sqrt $3));
  (8%positive, ($2 * $2));
  (11%positive, (Neg $3));
  (15%positive, ($11 * $11))], (((((($1 * $5) * $4) * ((((#3082973424761438208000 * $8) * X) + (((#1926858390475898880000 * $11) * $2) * X)) + ((#160571532539658240000 * $15) * X))) * X) / #4697864266303143936000) - ((((($1 * $5) * $4) * $3) * (((#19268583904758988800000 * $8) + ((#6422861301586329600000 * $11) * $2)) + (#160571532539658240000 * $15))) / #32885049864122007552000))).
(** source/ass_leg_function.cc 4303-4326 *)
Definition P_12_8 : prog := ([(1%positive, (Sqrt #277134));
  (2%positive, (X * X));
  (3%positive, (#1 - $2));
  (4%positive, ($3 * $3));
  (5%positive, ($4 * $4));
  (7%positive, ($2 * $2));
  (9%positive, (Neg $3));
  (12%positive, ($9 * $9))], ((($1 * $5) * (((#19268583904758988800000 * $7) + ((#6422861301586329600000 * $9) * $2)) + (#160571532539658240000 * $12))) / #328850498641220075520000)).
(** source/ass_leg_function.cc 4331-4358 *)
Definition P_12_8_Deriv : prog := ([(1%positive, (Sqrt #277134));
  (2%positive, (X * X));
  (3%positive, (#1 - $2));
  (4%positive, ($3 * $3));
  (7%positive, ($2 * $2));
  (9%positive, (Neg $3));
  (12%positive, ($9 * $9));
  (18%positive, ($4 * $4))], (((((((Neg $1) * $4) * $3) * (((#19268583904758988800000 * $7) + ((#6422861301586329600000 * $9) * $2)) + (#160571532539658240000 * $12))) * X) / #41106312330152509440000) + ((($1 * $18) * (((#89920058222208614400000 * $2) * X) + ((#13488008733331292160000 * $9) * X))) / #328850498641220075520000))).
(** source/ass_leg_function.cc 4363-4381 *)
Definition P_12_9 : prog := ([(1%positive, (Sqrt #646646));
  (2%positive, (X * X));
  (3%positive, (#1 - $2));
  (4%positive, ($3 * $3));
  (5%positive, ($4 * $4));
  (6%positive, (Sqrt $3))], (((((Neg $1) * $6) * $5) * (((#89920058222208614400000 * $2) * X) - ((#13488008733331292160000 * $3) * X))) / #4603906980977081057280000)).
(** source/ass_leg_function.cc 4386-4408 *)
Definition P_12_9_Deriv : prog := ([(1%positive, (Sqrt #646646));
  (2%positive, (X * X));
  (3%positive, (#1 - $2));
  (4%positive, ($3 * $3));
  (6%positive, (Sqrt $3));
  (18%positive, ($4 * $4))], ((((((($1 * $6) * $4) * $3) * (((#89920058222208614400000 * $2) * X) - ((#13488008733331292160000 * $3) * X))) * X) / #511545220108564561920000) - (((($1 * $6) * $18) * ((#310224200866619719680000 * $2) - #13488008733331292160000)) / #4603906980977081057280000))).
(** source/ass_leg_function.cc 4413-4428 *)
Definition P_12_10 : prog := ([(1%positive, (Sqrt #88179));
  (2%positive, (X * X));
  (3%positive, (#1 - $2));
  (4%positive, ($3 * $3));
  (5%positive, ($4 * $4))], (((($1 * $5) * $3) * ((#310224200866619719680000 * $2) - #13488008733331292160000)) / #13811720942931243171840000)).
(** source/ass_leg_function.cc 4433-4450 *)
Definition P_12_10_Deriv : prog := ([(1%positive, (Sqrt #88179));
  (2%positive, (X * X));
  (3%positive, (#1 - $2));
  (4%positive, ($3 * $3));
  (5%positive, ($4 * $4))], ((((((Neg $1) * $5) * ((#310224200866619719680000 * $2) - #13488008733331292160000)) * X) / #1381172094293124317184000) + (((((#23 / #512) * $1) * $5) * $3) * X))).
(** source/ass_leg_function.cc 4455-4470 *)
Definition P_12_11 : prog := ([(1%positive, (Sqrt #4056234));
  (2%positive, (X * X));
  (3%positive, (#1 - $2));
  (4%positive, ($3 * $3));
  (5%positive, ($4 * $4));
  (7%positive, (Sqrt $3))], ((((((Neg $1) * $7) * $5) * $3) * X) / #1024)).
(** source/ass_leg_function.cc 4475-4490 *)
Definition P_12_11_Deriv : prog := ([(1%positive, (Sqrt #4056234));
  (2%positive, (X * X));
  (3%positive, (#1 - $2));
  (4%positive, ($3 * $3));
  (5%positive, ($4 * $4));
  (6%positive, (Sqrt $3))], ((((((#11 / #1024) * $1) * $6) * $5) * $2) - (((($1 * $6) * $5) * $3) / #1024))).
(** source/ass_leg_function.cc 4495-4506 *)
Definition P_12_12 : prog := ([(1%positive, (Sqrt #676039));
  (2%positive, (X * X));
  (4%positive, (Pow2 (#1 - $2)));
  (5%positive, ($4 * $4))], ((($1 * $5) * $4) / #2048)).
(** source/ass_leg_function.cc 4511-4524 *)
Definition P_12_12_Deriv : prog := ([(1%positive, (Sqrt #676039));
  (2%positive, (X * X));
  (3%positive, (#1 - $2));
  (4%positive, ($3 * $3));
  (5%positive, ($4 * $4))], ((((((Neg #3) / #512) * $1) * $5) * $3) * X)).
(** source/ass_leg_function.cc 4527-4549 *)
Definition P_13_0 : prog := ([(1%positive, (X * X));
  (2%positive, ($1 * $1));
  (3%positive, ($2 * X));
  (4%positive, ($2 * $2));
  (6%positive, ($1 - #1));
  (7%positive, ($1 * X));
  (11%positive, ($6 * $6));
  (19%positive, ($11 * $11))], ((((((($4 * $3) + (((#39 * $6) * $4) * $7)) + ((((#2145 / #8) * $11) * $4) * X)) + (((((#2145 / #4) * $11) * $6) * $2) * $7)) + (((#45045 / #128) * $19) * $3)) + ((((#9009 / #128) * $19) * $6) * $7)) + ((((#3003 / #1024) * $19) * $11) * X))).
(** source/ass_leg_function.cc 4552-4571 *)
Definition P_13_0_Deriv : prog := ([(1%positive, (X * X));
  (2%positive, ($1 * $1));
  (3%positive, ($2 * $2));
  (6%positive, ($1 - #1));
  (10%positive, ($6 * $6));
  (17%positive, ($10 * $10))], ((((((((#91 * $3) * $2) + ((((#3003 / #2) * $6) * $3) * $1)) + (((#45045 / #8) * $10) * $3)) + (((((#105105 / #16) * $10) * $6) * $2) * $1)) + (((#315315 / #128) * $17) * $2)) + ((((#63063 / #256) * $1) * $6) * $17)) + (((#3003 / #1024) * $17) * $10))).
(** source/ass_leg_function.cc 4576-4605 *)
Definition P_13_1 : prog := ([(1%positive, (Sqrt #182));
  (2%positive, (X * X));
  (3%positive, (#1 - $2));
  (4%positive, (Sqrt $3));
  (6%positive, ($2 * $2));
  (7%positive, ($6 * $6));
  (10%positive, (Neg $3));
  (14%positive, ($10 * $10));
  (21%positive, ($14 * $14))], ((((Neg $1) * $4) * ((((((((#4642069649817600 * $7) * $6) + (((#76594149221990400 * $10) * $7) * $2)) + ((#287228059582464000 * $14) * $7)) + ((((#335099402846208000 * $14) * $10) * $6) * $2)) + ((#125662276067328000 * $21) * $6)) + (((#12566227606732800 * $21) * $10) * $2)) + ((#149597947699200 * $21) * $14))) / #9284139299635200)).
(** source/ass_leg_function.cc 4610-4652 *)
Definition P_13_1_Deriv : prog := ([(1%positive, (Sqrt #182));
  (2%positive, (X * X));
  (3%positive, (#1 - $2));
  (4%positive, (Sqrt $3));
  (7%positive, ($2 * $2));
  (8%positive, ($7 * $7));
  (11%positive, (Neg $3));
  (15%positive, ($11 * $11));
  (18%positive, ($15 * $11));
  (22%positive, ($15 * $15));
  (25%positive, ($22 * $11));
  (34%positive, ($2 * X))], ((((($1 / $4) * ((((((((#4642069649817600 * $8) * $7) + (((#76594149221990400 * $11) * $8) * $2)) + ((#287228059582464000 * $15) * $8)) + (((#335099402846208000 * $18) * $7) * $2)) + ((#125662276067328000 * $22) * $7)) + ((#12566227606732800 * $25) * $2)) + ((#149597947699200 * $22) * $15))) * X) / #9284139299635200) - ((($1 * $4) * (((((((#208893134241792000 * $8) * $34) + (((#1914853730549760000 * $11) * $8) * X)) + (((#4308420893736960000 * $15) * $7) * $34)) + (((#3015894625615872000 * $18) * $7) * X)) + ((#628311380336640000 * $22) * $34)) + ((#26927630585856000 * $25) * X))) / #9284139299635200))).
(** source/ass_leg_function.cc 4657-4685 *)
Definition P_13_2 : prog := ([(1%positive, (Sqrt #910));
  (2%positive, (X * X));
  (3%positive, (#1 - $2));
  (5%positive, ($2 * X));
  (6%positive, ($2 * $2));
  (7%positive, ($6 * $6));
  (10%positive, (Neg $3));
  (14%positive, ($10 * $10));
  (22%positive, ($14 * $14))], ((($1 * $3) * (((((((#208893134241792000 * $7) * $5) + (((#1914853730549760000 * $10) * $7) * X)) + (((#4308420893736960000 * $14) * $6) * $5)) + ((((#3015894625615872000 * $14) * $10) * $6) * X)) + ((#628311380336640000 * $22) * $5)) + (((#26927630585856000 * $22) * $10) * X))) / #278524178989056000)).
(** source/ass_leg_function.cc 4690-4727 *)
Definition P_13_2_Deriv : prog := ([(1%positive, (Sqrt #910));
  (3%positive, (X * X));
  (4%positive, ($3 * X));
  (5%positive, ($3 * $3));
  (6%positive, ($5 * $5));
  (9%positive, ($3 - #1));
  (13%positive, ($9 * $9));
  (17%positive, ($13 * $9));
  (21%positive, ($13 * $13));
  (24%positive, ($21 * $9))], (((((Neg $1) * X) * (((((((#208893134241792000 * $6) * $4) + (((#1914853730549760000 * $9) * $6) * X)) + (((#4308420893736960000 * $13) * $5) * $4)) + (((#3015894625615872000 * $17) * $5) * X)) + ((#628311380336640000 * $21) * $4)) + ((#26927630585856000 * $24) * X))) / #139262089494528000) - ((($1 * $9) * (((((((#6127531937759232000 * $6) * $3) + ((#34467367149895680000 * $9) * $6)) + (((#48254314009853952000 * $13) * $5) * $3)) + ((#20105964170772480000 * $17) * $5)) + ((#2154210446868480000 * $21) * $3)) + (#26927630585856000 * $24))) / #278524178989056000))).
(** source/ass_leg_function.cc 4732-4759 *)
Definition P_13_3 : prog := ([(1%positive, (Sqrt #10010));
  (2%positive, (X * X));
  (3%positive, (#1 - $2));
  (4%positive, (Sqrt $3));
  (7%positive, ($2 * $2));
  (8%positive, ($7 * $7));
  (11%positive, (Neg $3));
  (14%positive, ($11 * $11));
  (21%positive, ($14 * $14))], (((((Neg $1) * $4) * $3) * (((((((#6127531937759232000 * $8) * $2) + ((#34467367149895680000 * $11) * $8)) + (((#48254314009853952000 * $14) * $7) * $2)) + (((#20105964170772480000 * $14) * $11) * $7)) + ((#2154210446868480000 * $21) * $2)) + ((#26927630585856000 * $21) * $11))) / #12255063875518464000)).
(** source/ass_leg_function.cc 4764-4803 *)
Definition P_13_3_Deriv : prog := ([(1%positive, (Sqrt #10010));
  (2%positive, (X * X));
  (3%positive, (#1 - $2));
  (4%positive, (Sqrt $3));
  (6%positive, ($2 * $2));
  (7%positive, ($6 * $6));
  (10%positive, (Neg $3));
  (13%positive, ($10 * $10));
  (17%positive, ($13 * $10));
  (20%positive, ($13 * $13));
  (33%positive, ($2 * X))], ((((($1 * $4) * (((((((#6127531937759232000 * $7) * $2) + ((#34467367149895680000 * $10) * $7)) + (((#48254314009853952000 * $13) * $6) * $2)) + ((#20105964170772480000 * $17) * $6)) + ((#2154210446868480000 * $20) * $2)) + ((#26927630585856000 * $20) * $10))) * X) / #4085021291839488000) - (((($1 * $4) * $3) * ((((((#130210053677383680000 * $7) * X) + (((#468756193238581248000 * $10) * $6) * $33)) + (((#410161669083758592000 * $13) * $6) * X)) + ((#97657540258037760000 * $17) * $33)) + ((#4577697199595520000 * $20) * X))) / #12255063875518464000))).
(** source/ass_leg_function.cc 4808-4837 *)
Definition P_13_4 : prog := ([(1%positive, (Sqrt #17017));
  (2%positive, (X * X));
  (3%positive, (#1 - $2));
  (4%positive, ($3 * $3));
  (6%positive, ($2 * $2));
  (7%positive, ($6 * $6));
  (10%positive, (Neg $3));
  (11%positive, ($2 * X));
  (15%positive, ($10 * $10));
  (22%positive, ($15 * $15))], ((($1 * $4) * ((((((#130210053677383680000 * $7) * X) + (((#468756193238581248000 * $10) * $6) * $11)) + (((#410161669083758592000 * $15) * $6) * X)) + (((#97657540258037760000 * $15) * $10) * $11)) + ((#4577697199595520000 * $22) * X))) / #208336085883813888000)).
(** source/ass_leg_function.cc 4842-4880 *)
Definition P_13_4_Deriv : prog := ([(1%positive, (Sqrt #17017));
  (2%positive, (X * X));
  (3%positive, (#1 - $2));
  (5%positive, ($2 * $2));
  (6%positive, ($5 * $5));
  (9%positive, (Neg $3));
  (10%positive, ($2 * X));
  (14%positive, ($9 * $9));
  (18%positive, ($14 * $9));
  (21%positive, ($14 * $14));
  (28%positive, ($3 * $3))], ((((((Neg $1) * $3) * ((((((#130210053677383680000 * $6) * X) + (((#468756193238581248000 * $9) * $5) * $10)) + (((#410161669083758592000 * $14) * $5) * X)) + ((#97657540258037760000 * $18) * $10)) + ((#4577697199595520000 * $21) * X))) * X) / #52084021470953472000) + ((($1 * $28) * (((((#2109402869573615616000 * $6) + (((#4921940029005103104000 * $9) * $5) * $2)) + ((#2636753586967019520000 * $14) * $5)) + ((#329594198370877440000 * $18) * $2)) + (#4577697199595520000 * $21))) / #208336085883813888000))).
(** source/ass_leg_function.cc 4885-4914 *)
Definition P_13_5 : prog := ([(1%positive, (Sqrt #34034));
  (2%positive, (X * X));
  (3%positive, (#1 - $2));
  (4%positive, ($3 * $3));
  (5%positive, (Sqrt $3));
  (8%positive, ($2 * $2));
  (9%positive, ($8 * $8));
  (11%positive, (Neg $3));
  (15%positive, ($11 * $11));
  (21%positive, ($15 * $15))], (((((Neg $1) * $5) * $4) * (((((#2109402869573615616000 * $9) + (((#4921940029005103104000 * $11) * $8) * $2)) + ((#2636753586967019520000 * $15) * $8)) + (((#329594198370877440000 * $15) * $11) * $2)) + (#4577697199595520000 * $21))) / #3750049545908649984000)).
(** source/ass_leg_function.cc 4919-4958 *)
Definition P_13_5_Deriv : prog := ([(1%positive, (Sqrt #34034));
  (2%positive, (X * X));
  (3%positive, (#1 - $2));
  (4%positive, (Sqrt $3));
  (7%positive, ($2 * $2));
  (8%positive, ($7 * $7));
  (10%positive, (Neg $3));
  (14%positive, ($10 * $10));
  (17%positive, ($14 * $10));
  (20%positive, ($14 * $14));
  (26%positive, ($3 * $3));
  (29%positive, ($2 * X))], (((((($1 * $4) * $3) * (((((#2109402869573615616000 * $8) + (((#4921940029005103104000 * $10) * $7) * $2)) + ((#2636753586967019520000 * $7) * $14)) + ((#329594198370877440000 * $17) * $2)) + (#4577697199595520000 * $20))) * X) / #750009909181729996800) - (((($1 * $4) * $26) * (((((#26719103014599131136000 * $7) * $29) + (((#40078654521898696704000 * $10) * $7) * X)) + ((#12524579538093342720000 * $14) * $29)) + ((#695809974338519040000 * $17) * X))) / #3750049545908649984000))).
(** source/ass_leg_function.cc 4963-4987 *)
Definition P_13_6 : prog := ([(1%positive, (Sqrt #323323));
  (2%positive, (X * X));
  (3%positive, (#1 - $2));
  (4%positive, ($3 * $3));
  (7%positive, ($2 * X));
  (8%positive, ($2 * $2));
  (11%positive, (Neg $3));
  (15%positive, ($11 * $11))], (((($1 * $4) * $3) * (((((#26719103014599131136000 * $8) * $7) + (((#40078654521898696704000 * $11) * $8) * X)) + ((#12524579538093342720000 * $7) * $15)) + (((#695809974338519040000 * $15) * $11) * X))) / #142501882744528699392000)).
(** source/ass_leg_function.cc 4992-5024 *)
Definition P_13_6_Deriv : prog := ([(1%positive, (Sqrt #323323));
  (2%positive, (X * X));
  (3%positive, (#1 - $2));
  (4%positive, ($3 * $3));
  (6%positive, ($2 * X));
  (7%positive, ($2 * $2));
  (10%positive, (Neg $3));
  (14%positive, ($10 * $10));
  (17%positive, ($14 * $10))], ((((((Neg $1) * $4) * (((((#26719103014599131136000 * $7) * $6) + (((#40078654521898696704000 * $10) * $7) * X)) + ((#12524579538093342720000 * $14) * $6)) + ((#695809974338519040000 * $17) * X))) * X) / #23750313790754783232000) + (((($1 * $4) * $3) * (((((#267191030145991311360000 * $7) * $2) + ((#250491590761866854400000 * $10) * $7)) + ((#41748598460311142400000 * $14) * $2)) + (#695809974338519040000 * $17))) / #142501882744528699392000))).
(** source/ass_leg_function.cc 5029-5053 *)
Definition P_13_7 : prog := ([(1%positive, (Sqrt #230945));
  (2%positive, (X * X));
  (3%positive, (#1 - $2));
  (4%positive, ($3 * $3));
  (6%positive, (Sqrt $3));
  (9%positive, ($2 * $2));
  (12%positive, (Neg $3));
  (15%positive, ($12 * $12))], ((((((Neg $1) * $6) * $4) * $3) * (((((#267191030145991311360000 * $9) * $2) + ((#250491590761866854400000 * $12) * $9)) + ((#41748598460311142400000 * $15) * $2)) + ((#695809974338519040000 * $12) * $15))) / #1425018827445286993920000)).
(** source/ass_leg_function.cc 5058-5087 *)
Definition P_13_7_Deriv : prog := ([(1%positive, (Sqrt #230945));
  (2%positive, (X * X));
  (3%positive, (#1 - $2));
  (4%positive, ($3 * $3));
  (5%positive, (Sqrt $3));
  (8%positive, ($2 * $2));
  (11%positive, (Neg $3));
  (14%positive, ($11 * $11))], (((((($1 * $5) * $4) * (((((#267191030145991311360000 * $8) * $2) + ((#250491590761866854400000 * $11) * $8)) + ((#41748598460311142400000 * $14) * $2)) + ((#695809974338519040000 * $14) * $11))) * X) / #203574118206469570560000) - ((((($1 * $5) * $4) * $3) * ((((#2104129362399681576960000 * $8) * X) + (((#1168960756888711987200000 * $11) * $2) * X)) + ((#87672056766653399040000 * $14) * X))) / #1425018827445286993920000))).
(** source/ass_leg_function.cc 5092-5115 *)
Definition P_13_8 : prog := ([(1%positive, (Sqrt #3233230));
  (2%positive, (X * X));
  (3%positive, (#1 - $2));
  (4%positive, ($3 * $3));
  (5%positive, ($4 * $4));
  (7%positive, ($2 * $2));
  (10%positive, (Neg $3));
  (14%positive, ($10 * $10))], ((($1 * $5) * ((((#2104129362399681576960000 * $7) * X) + (((#1168960756888711987200000 * $10) * $2) * X)) + ((#87672056766653399040000 * $14) * X))) / #59850790752702053744640000)).
(** source/ass_leg_function.cc 5120-5148 *)
Definition P_13_8_Deriv : prog := ([(1%positive, (Sqrt #3233230));
  (2%positive, (X * X));
  (3%positive, (#1 - $2));
  (4%positive, ($3 * $3));
  (7%positive, ($2 * $2));
  (10%positive, (Neg $3));
  (14%positive, ($10 * $10));
  (21%positive, ($4 * $4))], (((((((Neg $1) * $4) * $3) * ((((#2104129362399681576960000 * $7) * X) + (((#1168960756888711987200000 * $10) * $2) * X)) + ((#87672056766653399040000 * $14) * X))) * X) / #7481348844087756718080000) + ((($1 * $21) * (((#12858568325775831859200000 * $7) + ((#3857570497732749557760000 * $10) * $2)) + (#87672056766653399040000 * $14))) / #59850790752702053744640000))).
(** source/ass_leg_function.cc 5153-5178 *)
Definition P_13_9 : prog := ([(1%positive, (Sqrt #29393));
  (2%positive, (X * X));
  (3%positive, (#1 - $2));
  (4%positive, ($3 * $3));
  (5%positive, ($4 * $4));
  (6%positive, (Sqrt $3));
  (9%positive, ($2 * $2));
  (11%positive, (Neg $3));
  (14%positive, ($11 * $11))], (((((Neg $1) * $6) * $5) * (((#12858568325775831859200000 * $9) + ((#3857570497732749557760000 * $11) * $2)) + (#87672056766653399040000 * $14))) / #59850790752702053744640000)).
(** source/ass_leg_function.cc 5183-5212 *)
Definition P_13_9_Deriv : prog := ([(1%positive, (Sqrt #29393));
  (2%positive, (X * X));
  (3%positive, (#1 - $2));
  (4%positive, ($3 * $3));
  (6%positive, (Sqrt $3));
  (9%positive, ($2 * $2));
  (11%positive, (Neg $3));
  (14%positive, ($11 * $11));
  (20%positive, ($4 * $4))], ((((((($1 * $6) * $4) * $3) * (((#12858568325775831859200000 * $9) + ((#3857570497732749557760000 * $11) * $2)) + (#87672056766653399040000 * $14))) * X) / #6650087861411339304960000) - (((($1 * $6) * $20) * (((#59149414298568826552320000 * $2) * X) + ((#8065829222532112711680000 * $11) * X))) / #59850790752702053744640000))).
(** source/ass_leg_function.cc 5217-5233 *)
Definition P_13_10 : prog := ([(1%positive, (Sqrt #676039));
  (2%positive, (X * X));
  (3%positive, (#1 - $2));
  (4%positive, ($3 * $3));
  (5%positive, ($4 * $4))], (((($1 * $5) * $3) * (((#59149414298568826552320000 * $2) * X) - ((#8065829222532112711680000 * $3) * X))) / #2753136374624294472253440000)).
(** source/ass_leg_function.cc 5238-5258 *)
Definition P_13_10_Deriv : prog := ([(1%positive, (Sqrt #676039));
  (2%positive, (X * X));
  (3%positive, (#1 - $2));
  (4%positive, ($3 * $3));
  (5%positive, ($4 * $4))], ((((((Neg $1) * $5) * (((#59149414298568826552320000 * $2) * X) - ((#8065829222532112711680000 * $3) * X))) * X) / #275313637462429447225344000) + (((($1 * $5) * $3) * ((#201645730563302817792000000 * $2) - #8065829222532112711680000)) / #2753136374624294472253440000))).
(** source/ass_leg_function.cc 5263-5281 *)
Definition P_13_11 : prog := ([(1%positive, (Sqrt #1352078));
  (2%positive, (X * X));
  (3%positive, (#1 - $2));
  (4%positive, ($3 * $3));
  (5%positive, ($4 * $4));
  (7%positive, (Sqrt $3))], ((((((Neg $1) * $7) * $5) * $3) * ((#201645730563302817792000000 * $2) - #8065829222532112711680000)) / #33037636495491533667041280000)).
(** source/ass_leg_function.cc 5286-5305 *)
Definition P_13_11_Deriv : prog := ([(1%positive, (Sqrt #1352078));
  (2%positive, (X * X));
  (3%positive, (#1 - $2));
  (4%positive, ($3 * $3));
  (5%positive, ($4 * $4));
  (6%positive, (Sqrt $3))], (((((($1 * $6) * $5) * ((#201645730563302817792000000 * $2) - #8065829222532112711680000)) * X) / #3003421499590139424276480000) - ((((((#25 / #2048) * $1) * $6) * $5) * $3) * X))).
(** source/ass_leg_function.cc 5310-5321 *)
Definition P_13_12 : prog := ([(1%positive, (Sqrt #676039));
  (2%positive, (X * X));
  (4%positive, (Pow2 (#1 - $2)));
  (5%positive, ($4 * $4))], (((((#5 / #2048) * $1) * $5) * $4) * X)).
(** source/ass_leg_function.cc 5326-5340 *)
Definition P_13_12_Deriv : prog := ([(1%positive, (Sqrt #676039));
  (2%positive, (X * X));
  (3%positive, (#1 - $2));
  (4%positive, ($3 * $3));
  (5%positive, ($4 * $4))], (((((((Neg #15) / #512) * $1) * $5) * $3) * $2) + ((((#5 / #2048) * $1) * $5) * $4))).
(** source/ass_leg_function.cc 5345-5360 *)
Definition P_13_13 : prog := ([(1%positive, (Sqrt #104006));
  (2%positive, (X * X));
  (3%positive, (#1 - $2));
  (4%positive, ($3 * $3));
  (5%positive, ($4 * $4));
  (7%positive, (Sqrt $3))], ((((((Neg #5) / #4096) * $1) * $7) * $5) * $4)).
(** source/ass_leg_function.cc 5365-5380 *)
Definition P_13_13_Deriv : prog := ([(1%positive, (Sqrt #104006));
  (2%positive, (X * X));
  (3%positive, (#1 - $2));
  (4%positive, ($3 * $3));
  (5%positive, ($4 * $4));
  (7%positive, (Sqrt $3))], ((((((#65 / #4096) * $1) * $7) * $5) * $3) * X)).
(** source/ass_leg_function.cc 5383-5406 *)
Definition P_14_0 : prog := ([(1%positive, (X * X));
  (2%positive, ($1 * $1));
  (3%positive, ($2 * $1));
  (4%positive, ($2 * $2));
  (6%positive, ($1 - #1));
  (10%positive, ($6 * $6));
  (14%positive, ($10 * $6));
  (17%positive, ($10 * $10))], (((((((($4 * $3) + ((((#91 / #2) * $6) * $4) * $2)) + ((((#3003 / #8) * $10) * $4) * $1)) + (((#15015 / #16) * $14) * $4)) + (((#105105 / #128) * $17) * $3)) + ((((#63063 / #256) * $17) * $6) * $2)) + ((((#21021 / #1024) * $17) * $10) * $1)) + (((#429 / #2048) * $17) * $14))).
(** source/ass_leg_function.cc 5409-5433 *)
Definition P_14_0_Deriv : prog := ([(1%positive, (X * X));
  (2%positive, ($1 * $1));
  (3%positive, ($2 * X));
  (4%positive, ($2 * $2));
  (7%positive, ($1 - #1));
  (8%positive, ($1 * X));
  (12%positive, ($7 * $7));
  (20%positive, ($12 * $12))], ((((((((#105 * $4) * $3) + ((((#4095 / #2) * $7) * $4) * $8)) + ((((#75075 / #8) * $12) * $4) * X)) + (((((#225225 / #16) * $12) * $7) * $2) * $8)) + (((#945945 / #128) * $20) * $3)) + ((((#315315 / #256) * $20) * $7) * $8)) + ((((#45045 / #1024) * $20) * $12) * X))).
(** source/ass_leg_function.cc 5438-5471 *)
Definition P_14_1 : prog := ([(1%positive, (Sqrt #210));
  (2%positive, (X * X));
  (3%positive, (#1 - $2));
  (4%positive, (Sqrt $3));
  (6%positive, ($2 * $2));
  (7%positive, ($6 * X));
  (8%positive, ($6 * $6));
  (11%positive, (Neg $3));
  (12%positive, ($2 * X));
  (16%positive, ($11 * $11));
  (24%positive, ($16 * $16))], ((((Neg $1) * $4) * ((((((((#149974557917184000 * $8) * $7) + (((#2924503879385088000 * $11) * $8) * $12)) + (((#13403976113848320000 * $16) * $8) * X)) + ((((#20105964170772480000 * $16) * $11) * $6) * $12)) + ((#10555631189655552000 * $24) * $7)) + (((#1759271864942592000 * $24) * $11) * $12)) + (((#62831138033664000 * $24) * $16) * X))) / #299949115834368000)).
(** source/ass_leg_function.cc 5476-5524 *)
Definition P_14_1_Deriv : prog := ([(1%positive, (Sqrt #210));
  (2%positive, (X * X));
  (3%positive, (#1 - $2));
  (4%positive, (Sqrt $3));
  (7%positive, ($2 * $2));
  (8%positive, ($7 * X));
  (9%positive, ($7 * $7));
  (12%positive, (Neg $3));
  (13%positive, ($2 * X));
  (17%positive, ($12 * $12));
  (21%positive, ($17 * $12));
  (25%positive, ($17 * $17));
  (28%positive, ($25 * $12));
  (31%positive, ($25 * $17))], ((((($1 / $4) * ((((((((#149974557917184000 * $9) * $8) + (((#2924503879385088000 * $12) * $9) * $13)) + (((#13403976113848320000 * $17) * $9) * X)) + (((#20105964170772480000 * $21) * $7) * $13)) + ((#10555631189655552000 * $25) * $8)) + ((#1759271864942592000 * $28) * $13)) + ((#62831138033664000 * $31) * X))) * X) / #299949115834368000) - ((($1 * $4) * ((((((((#7798677011693568000 * $9) * $7) + (((#85785447128629248000 * $12) * $9) * $2)) + ((#241271570049269760000 * $17) * $9)) + (((#225186798712651776000 * $21) * $7) * $2)) + ((#70370874597703680000 * $25) * $7)) + ((#6031789251231744000 * $28) * $2)) + (#62831138033664000 * $31))) / #299949115834368000))).
(** source/ass_leg_function.cc 5529-5556 *)
Definition P_14_2 : prog := ([(1%positive, (Sqrt #2730));
  (2%positive, (X * X));
  (3%positive, (#1 - $2));
  (5%positive, ($2 * $2));
  (6%positive, ($5 * $5));
  (9%positive, (Neg $3));
  (13%positive, ($9 * $9));
  (20%positive, ($13 * $13))], ((($1 * $3) * ((((((((#7798677011693568000 * $6) * $5) + (((#85785447128629248000 * $9) * $6) * $2)) + ((#241271570049269760000 * $13) * $6)) + ((((#225186798712651776000 * $13) * $9) * $5) * $2)) + ((#70370874597703680000 * $20) * $5)) + (((#6031789251231744000 * $20) * $9) * $2)) + ((#62831138033664000 * $20) * $13))) / #15597354023387136000)).
(** source/ass_leg_function.cc 5561-5600 *)
Definition P_14_2_Deriv : prog := ([(1%positive, (Sqrt #2730));
  (3%positive, (X * X));
  (4%positive, ($3 * $3));
  (5%positive, ($4 * $4));
  (8%positive, ($3 - #1));
  (12%positive, ($8 * $8));
  (15%positive, ($12 * $8));
  (19%positive, ($12 * $12));
  (22%positive, ($19 * $8));
  (32%positive, ($3 * X))], (((((Neg $1) * X) * ((((((((#7798677011693568000 * $5) * $4) + (((#85785447128629248000 * $8) * $5) * $3)) + ((#241271570049269760000 * $12) * $5)) + (((#225186798712651776000 * $15) * $4) * $3)) + ((#70370874597703680000 * $19) * $4)) + ((#6031789251231744000 * $22) * $3)) + ((#62831138033664000 * $19) * $12))) / #7798677011693568000) - ((($1 * $8) * (((((((#265155018397581312000 * $5) * $32) + (((#1822940751483371520000 * $8) * $5) * X)) + (((#3281293352670068736000 * $12) * $4) * $32)) + (((#1914087789057540096000 * $15) * $4) * X)) + ((#341801390903132160000 * $19) * $32)) + ((#12817552158867456000 * $22) * X))) / #15597354023387136000))).
(** source/ass_leg_function.cc 5605-5635 *)
Definition P_14_3 : prog := ([(1%positive, (Sqrt #15470));
  (2%positive, (X * X));
  (3%positive, (#1 - $2));
  (4%positive, (Sqrt $3));
  (7%positive, ($2 * X));
  (8%positive, ($2 * $2));
  (9%positive, ($8 * $8));
  (12%positive, (Neg $3));
  (16%positive, ($12 * $12));
  (24%positive, ($16 * $16))], (((((Neg $1) * $4) * $3) * (((((((#265155018397581312000 * $9) * $7) + (((#1822940751483371520000 * $12) * $9) * X)) + (((#3281293352670068736000 * $16) * $8) * $7)) + ((((#1914087789057540096000 * $16) * $12) * $8) * X)) + ((#341801390903132160000 * $24) * $7)) + (((#12817552158867456000 * $24) * $12) * X))) / #530310036795162624000)).
(** source/ass_leg_function.cc 5640-5682 *)
Definition P_14_3_Deriv : prog := ([(1%positive, (Sqrt #15470));
  (2%positive, (X * X));
  (3%positive, (#1 - $2));
  (4%positive, (Sqrt $3));
  (6%positive, ($2 * X));
  (7%positive, ($2 * $2));
  (8%positive, ($7 * $7));
  (11%positive, (Neg $3));
  (15%positive, ($11 * $11));
  (19%positive, ($15 * $11));
  (23%positive, ($15 * $15));
  (26%positive, ($23 * $11))], ((((($1 * $4) * (((((((#265155018397581312000 * $6) * $8) + (((#1822940751483371520000 * $11) * $8) * X)) + (((#3281293352670068736000 * $15) * $7) * $6)) + (((#1914087789057540096000 * $19) * $7) * X)) + ((#341801390903132160000 * $23) * $6)) + ((#12817552158867456000 * $26) * X))) * X) / #176770012265054208000) - (((($1 * $4) * $3) * (((((((#6562586705340137472000 * $8) * $2) + ((#29531640174030618624000 * $11) * $8)) + (((#34453580203035721728000 * $15) * $7) * $2)) + ((#12304850072512757760000 * $19) * $7)) + ((#1153579694298071040000 * $2) * $23)) + (#12817552158867456000 * $26))) / #530310036795162624000))).
(** source/ass_leg_function.cc 5687-5715 *)
Definition P_14_4 : prog := ([(1%positive, (Sqrt #85085));
  (2%positive, (X * X));
  (3%positive, (#1 - $2));
  (4%positive, ($3 * $3));
  (6%positive, ($2 * $2));
  (7%positive, ($6 * $6));
  (10%positive, (Neg $3));
  (13%positive, ($10 * $10));
  (20%positive, ($13 * $13))], ((($1 * $4) * (((((((#6562586705340137472000 * $7) * $2) + ((#29531640174030618624000 * $10) * $7)) + (((#34453580203035721728000 * $13) * $6) * $2)) + (((#12304850072512757760000 * $13) * $10) * $6)) + ((#1153579694298071040000 * $20) * $2)) + ((#12817552158867456000 * $20) * $10))) / #17500231214240366592000)).
(** source/ass_leg_function.cc 5720-5759 *)
Definition P_14_4_Deriv : prog := ([(1%positive, (Sqrt #85085));
  (2%positive, (X * X));
  (3%positive, (#1 - $2));
  (5%positive, ($2 * $2));
  (6%positive, ($5 * $5));
  (9%positive, (Neg $3));
  (12%positive, ($9 * $9));
  (16%positive, ($12 * $9));
  (19%positive, ($12 * $12));
  (28%positive, ($3 * $3));
  (32%positive, ($2 * X))], ((((((Neg $1) * $3) * (((((((#6562586705340137472000 * $6) * $2) + ((#29531640174030618624000 * $9) * $6)) + (((#34453580203035721728000 * $12) * $5) * $2)) + ((#12304850072512757760000 * $16) * $5)) + ((#1153579694298071040000 * $19) * $2)) + ((#12817552158867456000 * $19) * $9))) * X) / #4375057803560091648000) + ((($1 * $28) * ((((((#124689147401462611968000 * $6) * X) + (((#374067442204387835904000 * $9) * $5) * $32)) + (((#280550581653290876928000 * $12) * $5) * X)) + ((#58448037844435599360000 * $16) * $32)) + ((#2435334910184816640000 * $19) * X))) / #17500231214240366592000))).
(** source/ass_leg_function.cc 5764-5795 *)
Definition P_14_5 : prog := ([(1%positive, (Sqrt #646646));
  (2%positive, (X * X));
  (3%positive, (#1 - $2));
  (4%positive, ($3 * $3));
  (5%positive, (Sqrt $3));
  (8%positive, ($2 * $2));
  (9%positive, ($8 * $8));
  (12%positive, (Neg $3));
  (13%positive, ($2 * X));
  (17%positive, ($12 * $12));
  (24%positive, ($17 * $17))], (((((Neg $1) * $5) * $4) * ((((((#124689147401462611968000 * $9) * X) + (((#374067442204387835904000 * $12) * $8) * $13)) + (((#280550581653290876928000 * $17) * $8) * X)) + (((#58448037844435599360000 * $17) * $12) * $13)) + ((#2435334910184816640000 * $24) * X))) / #665008786141133930496000)).
(** source/ass_leg_function.cc 5800-5840 *)
Definition P_14_5_Deriv : prog := ([(1%positive, (Sqrt #646646));
  (2%positive, (X * X));
  (3%positive, (#1 - $2));
  (4%positive, (Sqrt $3));
  (7%positive, ($2 * $2));
  (8%positive, ($7 * $7));
  (11%positive, (Neg $3));
  (12%positive, ($2 * X));
  (16%positive, ($11 * $11));
  (20%positive, ($16 * $11));
  (23%positive, ($16 * $16));
  (30%positive, ($3 * $3))], (((((($1 * $4) * $3) * ((((((#124689147401462611968000 * $8) * X) + (((#374067442204387835904000 * $11) * $7) * $12)) + (((#280550581653290876928000 * $16) * $7) * X)) + ((#58448037844435599360000 * $20) * $12)) + ((#2435334910184816640000 * $23) * X))) * X) / #133001757228226786099200) - (((($1 * $4) * $30) * (((((#1870337211021939179520000 * $8) + (((#3740674422043878359040000 * $11) * $7) * $2)) + ((#1753441135333067980800000 * $16) * $7)) + ((#194826792814785331200000 * $20) * $2)) + (#2435334910184816640000 * $23))) / #665008786141133930496000))).
(** source/ass_leg_function.cc 5845-5872 *)
Definition P_14_6 : prog := ([(1%positive, (Sqrt #3233230));
  (2%positive, (X * X));
  (3%positive, (#1 - $2));
  (4%positive, ($3 * $3));
  (7%positive, ($2 * $2));
  (8%positive, ($7 * $7));
  (10%positive, (Neg $3));
  (14%positive, ($10 * $10));
  (20%positive, ($14 * $14))], (((($1 * $4) * $3) * (((((#1870337211021939179520000 * $8) + (((#3740674422043878359040000 * $10) * $7) * $2)) + ((#1753441135333067980800000 * $14) * $7)) + (((#194826792814785331200000 * $14) * $10) * $2)) + (#2435334910184816640000 * $20))) / #19950263584234017914880000)).
(** source/ass_leg_function.cc 5877-5914 *)
Definition P_14_6_Deriv : prog := ([(1%positive, (Sqrt #3233230));
  (2%positive, (X * X));
  (3%positive, (#1 - $2));
  (4%positive, ($3 * $3));
  (6%positive, ($2 * $2));
  (7%positive, ($6 * $6));
  (9%positive, (Neg $3));
  (13%positive, ($9 * $9));
  (16%positive, ($9 * $13));
  (19%positive, ($13 * $13));
  (27%positive, ($2 * X))], ((((((Neg $1) * $4) * (((((#1870337211021939179520000 * $7) + (((#3740674422043878359040000 * $9) * $6) * $2)) + ((#1753441135333067980800000 * $13) * $6)) + ((#194826792814785331200000 * $16) * $2)) + (#2435334910184816640000 * $19))) * X) / #3325043930705669652480000) + (((($1 * $4) * $3) * (((((#22444046532263270154240000 * $27) * $6) + (((#29457811073595542077440000 * $9) * $6) * X)) + ((#8182725298220983910400000 * $13) * $27)) + ((#409136264911049195520000 * $16) * X))) / #19950263584234017914880000))).
(** source/ass_leg_function.cc 5919-5945 *)
Definition P_14_7 : prog := ([(1%positive, (Sqrt #692835));
  (2%positive, (X * X));
  (3%positive, (#1 - $2));
  (4%positive, ($3 * $3));
  (6%positive, (Sqrt $3));
  (9%positive, ($2 * X));
  (10%positive, ($2 * $2));
  (13%positive, (Neg $3));
  (17%positive, ($13 * $13))], ((((((Neg $1) * $6) * $4) * $3) * (((((#22444046532263270154240000 * $10) * $9) + (((#29457811073595542077440000 * $13) * $10) * X)) + ((#8182725298220983910400000 * $17) * $9)) + (((#409136264911049195520000 * $17) * $13) * X))) / #119701581505404107489280000)).
(** source/ass_leg_function.cc 5950-5984 *)
Definition P_14_7_Deriv : prog := ([(1%positive, (Sqrt #692835));
  (2%positive, (X * X));
  (3%positive, (#1 - $2));
  (4%positive, ($3 * $3));
  (5%positive, (Sqrt $3));
  (8%positive, ($2 * X));
  (9%positive, ($2 * $2));
  (12%positive, (Neg $3));
  (16%positive, ($12 * $12));
  (19%positive, ($16 * $12))], (((((($1 * $5) * $4) * (((((#22444046532263270154240000 * $9) * $8) + (((#29457811073595542077440000 * $12) * $9) * X)) + ((#8182725298220983910400000 * $16) * $8)) + ((#409136264911049195520000 * $19) * X))) * X) / #17100225929343443927040000) - ((((($1 * $5) * $4) * $3) * (((((#216023947873033975234560000 * $9) * $2) + ((#180019956560861646028800000 * $12) * $9)) + ((#27002993484129246904320000 * $16) * $2)) + (#409136264911049195520000 * $19))) / #119701581505404107489280000))).
(** source/ass_leg_function.cc 5989-6013 *)
Definition P_14_8 : prog := ([(1%positive, (Sqrt #881790));
  (2%positive, (X * X));
  (3%positive, (#1 - $2));
  (4%positive, ($3 * $3));
  (5%positive, ($4 * $4));
  (7%positive, ($2 * $2));
  (10%positive, (Neg $3));
  (13%positive, ($10 * $10))], ((($1 * $5) * (((((#216023947873033975234560000 * $7) * $2) + ((#180019956560861646028800000 * $10) * $7)) + ((#27002993484129246904320000 * $13) * $2)) + ((#409136264911049195520000 * $13) * $10))) / #1675822141075657504849920000)).
(** source/ass_leg_function.cc 6018-6047 *)
Definition P_14_8_Deriv : prog := ([(1%positive, (Sqrt #881790));
  (2%positive, (X * X));
  (3%positive, (#1 - $2));
  (4%positive, ($3 * $3));
  (7%positive, ($2 * $2));
  (10%positive, (Neg $3));
  (13%positive, ($10 * $10));
  (22%positive, ($4 * $4))], (((((((Neg $1) * $4) * $3) * (((((#216023947873033975234560000 * $7) * $2) + ((#180019956560861646028800000 * $7) * $10)) + ((#27002993484129246904320000 * $13) * $2)) + ((#409136264911049195520000 * $13) * $10))) * X) / #209477767634457188106240000) + ((($1 * $22) * ((((#1656183600359927143464960000 * $7) * X) + (((#828091800179963571732480000 * $10) * $2) * X)) + ((#56460804557724788981760000 * $13) * X))) / #1675822141075657504849920000))).
(** source/ass_leg_function.cc 6052-6077 *)
Definition P_14_9 : prog := ([(1%positive, (Sqrt #3380195));
  (2%positive, (X * X));
  (3%positive, (#1 - $2));
  (4%positive, ($3 * $3));
  (5%positive, ($4 * $4));
  (6%positive, (Sqrt $3));
  (9%positive, ($2 * $2));
  (12%positive, (Neg $3));
  (16%positive, ($12 * $12))], (((((Neg $1) * $6) * $5) * ((((#1656183600359927143464960000 * $9) * X) + (((#828091800179963571732480000 * $12) * $2) * X)) + ((#56460804557724788981760000 * $16) * X))) / #38543909244740122611548160000)).
(** source/ass_leg_function.cc 6082-6112 *)
Definition P_14_9_Deriv : prog := ([(1%positive, (Sqrt #3380195));
  (2%positive, (X * X));
  (3%positive, (#1 - $2));
  (4%positive, ($3 * $3));
  (6%positive, (Sqrt $3));
  (9%positive, ($2 * $2));
  (12%positive, (Neg $3));
  (16%positive, ($12 * $12));
  (23%positive, ($4 * $4))], ((((((($1 * $6) * $4) * $3) * ((((#1656183600359927143464960000 * $9) * X) + (((#828091800179963571732480000 * $12) * $2) * X)) + ((#56460804557724788981760000 * $16) * X))) * X) / #4282656582748902512394240000) - (((($1 * $6) * $23) * (((#9937101602159562860789760000 * $9) + ((#2710118618770789871124480000 * $12) * $2)) + (#56460804557724788981760000 * $16))) / #38543909244740122611548160000))).
(** source/ass_leg_function.cc 6117-6140 *)
Definition P_14_10 : prog := ([(1%positive, (Sqrt #4056234));
  (2%positive, (X * X));
  (3%positive, (#1 - $2));
  (4%positive, ($3 * $3));
  (5%positive, ($4 * $4));
  (8%positive, ($2 * $2));
  (10%positive, (Neg $3));
  (13%positive, ($10 * $10))], (((($1 * $5) * $3) * (((#9937101602159562860789760000 * $8) + ((#2710118618770789871124480000 * $10) * $2)) + (#56460804557724788981760000 * $13))) / #462526910936881471338577920000)).
(** source/ass_leg_function.cc 6145-6172 *)
Definition P_14_10_Deriv : prog := ([(1%positive, (Sqrt #4056234));
  (2%positive, (X * X));
  (3%positive, (#1 - $2));
  (4%positive, ($3 * $3));
  (5%positive, ($4 * $4));
  (7%positive, ($2 * $2));
  (9%positive, (Neg $3));
  (12%positive, ($9 * $9))], ((((((Neg $1) * $5) * (((#9937101602159562860789760000 * $7) + ((#2710118618770789871124480000 * $9) * $2)) + (#56460804557724788981760000 * $12))) * X) / #46252691093688147133857792000) + (((($1 * $5) * $3) * (((#45168643646179831185408000000 * $2) * X) + ((#5646080455772478898176000000 * $9) * X))) / #462526910936881471338577920000))).
(** source/ass_leg_function.cc 6177-6195 *)
Definition P_14_11 : prog := ([(1%positive, (Sqrt #4056234));
  (2%positive, (X * X));
  (3%positive, (#1 - $2));
  (4%positive, ($3 * $3));
  (5%positive, ($4 * $4));
  (7%positive, (Sqrt $3))], ((((((Neg $1) * $7) * $5) * $3) * (((#45168643646179831185408000000 * $2) * X) - ((#5646080455772478898176000000 * $3) * X))) / #4625269109368814713385779200000)).
(** source/ass_leg_function.cc 6200-6222 *)
Definition P_14_11_Deriv : prog := ([(1%positive, (Sqrt #4056234));
  (2%positive, (X * X));
  (3%positive, (#1 - $2));
  (4%positive, ($3 * $3));
  (5%positive, ($4 * $4));
  (6%positive, (Sqrt $3))], (((((($1 * $6) * $5) * (((#45168643646179831185408000000 * $2) * X) - ((#5646080455772478898176000000 * $3) * X))) * X) / #420479009942619519398707200000) - ((((($1 * $6) * $5) * $3) * ((#152444172305856930250752000000 * $2) - #5646080455772478898176000000)) / #4625269109368814713385779200000))).
(** source/ass_leg_function.cc 6227-6241 *)
Definition P_14_12 : prog := ([(1%positive, (Sqrt #52003));
  (2%positive, (X * X));
  (4%positive, (Pow2 (#1 - $2)));
  (5%positive, ($4 * $4))], (((($1 * $5) * $4) * ((#152444172305856930250752000000 * $2) - #5646080455772478898176000000)) / #4625269109368814713385779200000)).
(** source/ass_leg_function.cc 6246-6263 *)
Definition P_14_12_Deriv : prog := ([(1%positive, (Sqrt #52003));
  (2%positive, (X * X));
  (3%positive, (#1 - $2));
  (4%positive, ($3 * $3));
  (5%positive, ($4 * $4))], (((((((Neg $1) * $5) * $3) * ((#152444172305856930250752000000 * $2) - #5646080455772478898176000000)) * X) / #385439092447401226115481600000) + (((((#135 / #2048) * $1) * $5) * $4) * X))).
(** source/ass_leg_function.cc 6268-6283 *)
Definition P_14_13 : prog := ([(1%positive, (Sqrt #312018));
  (2%positive, (X * X));
  (3%positive, (#1 - $2));
  (4%positive, ($3 * $3));
  (5%positive, ($4 * $4));
  (7%positive, (Sqrt $3))], (((((((Neg #15) / #4096) * $1) * $7) * $5) * $4) * X)).
(** source/ass_leg_function.cc 6288-6304 *)
Definition P_14_13_Deriv : prog := ([(1%positive, (Sqrt #312018));
  (2%positive, (X * X));
  (3%positive, (#1 - $2));
  (4%positive, ($3 * $3));
  (5%positive, ($4 * $4));
  (7%positive, (Sqrt $3))], (((((((#195 / #4096) * $1) * $7) * $5) * $3) * $2) - (((((#15 / #4096) * $1) * $7) * $5) * $4))).
(** source/ass_leg_function.cc 6309-6322 *)
Definition P_14_14 : prog := ([(1%positive, (Sqrt #44574));
  (2%positive, (X * X));
  (3%positive, (#1 - $2));
  (4%positive, ($3 * $3));
  (6%positive, ($4 * $4))], (((((#15 / #8192) * $1) * $6) * $4) * $3)).
(** source/ass_leg_function.cc 6327-6338 *)
Definition P_14_14_Deriv : prog := ([(1%positive, (Sqrt #44574));
  (2%positive, (X * X));
  (4%positive, (Pow2 (#1 - $2)));
  (5%positive, ($4 * $4))], ((((((Neg #105) / #4096) * $1) * $5) * $4) * X)).
(** source/ass_leg_function.cc 6341-6369 *)
Definition P_15_0 : prog := ([(1%positive, (X * X));
  (2%positive, ($1 * X));
  (3%positive, ($1 * $1));
  (4%positive, ($3 * $2));
  (5%positive, ($3 * $3));
  (7%positive, ($1 - #1));
  (8%positive, ($3 * X));
  (12%positive, ($7 * $7));
  (16%positive, ($12 * $7));
  (20%positive, ($12 * $12))], (((((((($5 * $4) + ((((#105 / #2) * $7) * $5) * $8)) + ((((#4095 / #8) * $12) * $5) * $2)) + ((((#25025 / #16) * $16) * $5) * X)) + (((#225225 / #128) * $4) * $20)) + ((((#189189 / #256) * $20) * $7) * $8)) + ((((#105105 / #1024) * $20) * $12) * $2)) + ((((#6435 / #2048) * $20) * $16) * X))).
(** source/ass_leg_function.cc 6372-6395 *)
Definition P_15_0_Deriv : prog := ([(1%positive, (X * X));
  (2%positive, ($1 * $1));
  (3%positive, ($2 * $1));
  (4%positive, ($2 * $2));
  (7%positive, ($1 - #1));
  (11%positive, ($7 * $7));
  (15%positive, ($11 * $7));
  (18%positive, ($11 * $11))], (((((((((#120 * $4) * $3) + (((#2730 * $7) * $4) * $2)) + (((#15015 * $11) * $4) * $1)) + (((#225225 / #8) * $15) * $4)) + (((#315315 / #16) * $18) * $3)) + ((((#315315 / #64) * $18) * $7) * $2)) + ((((#45045 / #128) * $18) * $11) * $1)) + (((#6435 / #2048) * $15) * $18))).
(** source/ass_leg_function.cc 6400-6434 *)
Definition P_15_1 : prog := ([(1%positive, (Sqrt #15));
  (2%positive, (X * X));
  (3%positive, (#1 - $2));
  (4%positive, (Sqrt $3));
  (6%positive, ($2 * $2));
  (7%positive, ($6 * $2));
  (8%positive, ($6 * $6));
  (11%positive, (Neg $3));
  (15%positive, ($11 * $11));
  (19%positive, ($15 * $11));
  (22%positive, ($15 * $15))], ((((Neg $1) * $4) * (((((((((#5141984842874880000 * $8) * $7) + (((#116980155175403520000 * $11) * $8) * $6)) + (((#643390853464719360000 * $15) * $8) * $2)) + ((#1206357850246348800000 * $19) * $8)) + ((#844450495172444160000 * $22) * $7)) + (((#211112623793111040000 * $22) * $11) * $6)) + (((#15079473128079360000 * $22) * $15) * $2)) + ((#134638152929280000 * $22) * $19))) / #2570992421437440000)).
(** source/ass_leg_function.cc 6439-6490 *)
Definition P_15_1_Deriv : prog := ([(1%positive, (Sqrt #15));
  (2%positive, (X * X));
  (3%positive, (#1 - $2));
  (4%positive, (Sqrt $3));
  (7%positive, ($2 * $2));
  (8%positive, ($7 * $2));
  (9%positive, ($7 * $7));
  (12%positive, (Neg $3));
  (16%positive, ($12 * $12));
  (20%positive, ($16 * $12));
  (23%positive, ($16 * $16));
  (26%positive, ($12 * $23));
  (29%positive, ($23 * $16));
  (38%positive, ($7 * X));
  (41%positive, ($2 * X))], ((((($1 / $4) * (((((((((#5141984842874880000 * $8) * $9) + (((#116980155175403520000 * $12) * $9) * $7)) + (((#643390853464719360000 * $16) * $9) * $2)) + ((#1206357850246348800000 * $20) * $9)) + ((#844450495172444160000 * $23) * $8)) + ((#211112623793111040000 * $26) * $7)) + ((#15079473128079360000 * $29) * $2)) + ((#134638152929280000 * $23) * $20))) * X) / #2570992421437440000) - ((($1 * $4) * ((((((((#305948098151055360000 * $9) * $38) + (((#3977325275963719680000 * $12) * $9) * $41)) + (((#13672055636125286400000 * $16) * $9) * X)) + (((#16406466763350343680000 * $20) * $7) * $41)) + ((#7177829208965775360000 * $23) * $38)) + ((#1025404172709396480000 * $26) * $41)) + ((#32043880397168640000 * $29) * X))) / #2570992421437440000))).
(** source/ass_leg_function.cc 6495-6526 *)
Definition P_15_2 : prog := ([(1%positive, (Sqrt #3570));
  (2%positive, (X * X));
  (3%positive, (#1 - $2));
  (5%positive, ($2 * $2));
  (6%positive, ($5 * X));
  (7%positive, ($5 * $5));
  (10%positive, (Neg $3));
  (11%positive, ($2 * X));
  (15%positive, ($10 * $10));
  (23%positive, ($15 * $15))], ((($1 * $3) * ((((((((#305948098151055360000 * $7) * $6) + (((#3977325275963719680000 * $10) * $7) * $11)) + (((#13672055636125286400000 * $15) * $7) * X)) + ((((#16406466763350343680000 * $15) * $10) * $5) * $11)) + ((#7177829208965775360000 * $23) * $6)) + (((#1025404172709396480000 * $23) * $10) * $11)) + (((#32043880397168640000 * $23) * $15) * X))) / #611896196302110720000)).
(** source/ass_leg_function.cc 6531-6575 *)
Definition P_15_2_Deriv : prog := ([(1%positive, (Sqrt #3570));
  (3%positive, (X * X));
  (4%positive, ($3 * $3));
  (5%positive, ($4 * X));
  (6%positive, ($4 * $4));
  (9%positive, ($3 - #1));
  (10%positive, ($3 * X));
  (14%positive, ($9 * $9));
  (18%positive, ($14 * $9));
  (22%positive, ($14 * $14));
  (25%positive, ($22 * $9));
  (28%positive, ($22 * $14))], (((((Neg $1) * X) * ((((((((#305948098151055360000 * $6) * $5) + (((#3977325275963719680000 * $9) * $6) * $10)) + (((#13672055636125286400000 * $14) * $6) * X)) + (((#16406466763350343680000 * $18) * $4) * $10)) + ((#7177829208965775360000 * $22) * $5)) + ((#1025404172709396480000 * $25) * $10)) + ((#32043880397168640000 * $28) * X))) / #305948098151055360000) - ((($1 * $9) * ((((((((#11931975827891159040000 * $6) * $4) + (((#98438800580102062080000 * $9) * $6) * $3)) + ((#221487301305229639680000 * $14) * $6)) + (((#172267901015178608640000 * $18) * $4) * $3)) + ((#46143187771922841600000 * $22) * $4)) + ((#3460739082894213120000 * $25) * $3)) + (#32043880397168640000 * $28))) / #611896196302110720000))).
(** source/ass_leg_function.cc 6580-6609 *)
Definition P_15_3 : prog := ([(1%positive, (Sqrt #23205));
  (2%positive, (X * X));
  (3%positive, (#1 - $2));
  (4%positive, (Sqrt $3));
  (7%positive, ($2 * $2));
  (8%positive, ($7 * $7));
  (11%positive, (Neg $3));
  (15%positive, ($11 * $11));
  (22%positive, ($15 * $15))], (((((Neg $1) * $4) * $3) * ((((((((#11931975827891159040000 * $8) * $7) + (((#98438800580102062080000 * $11) * $8) * $2)) + ((#221487301305229639680000 * $15) * $8)) + ((((#172267901015178608640000 * $15) * $11) * $7) * $2)) + ((#46143187771922841600000 * $22) * $7)) + (((#3460739082894213120000 * $22) * $11) * $2)) + ((#32043880397168640000 * $22) * $15))) / #23863951655782318080000)).
(** source/ass_leg_function.cc 6614-6657 *)
Definition P_15_3_Deriv : prog := ([(1%positive, (Sqrt #23205));
  (2%positive, (X * X));
  (3%positive, (#1 - $2));
  (4%positive, (Sqrt $3));
  (6%positive, ($2 * $2));
  (7%positive, ($6 * $6));
  (10%positive, (Neg $3));
  (14%positive, ($10 * $10));
  (17%positive, ($14 * $10));
  (21%positive, ($14 * $14));
  (24%positive, ($10 * $21));
  (35%positive, ($2 * X))], ((((($1 * $4) * ((((((((#11931975827891159040000 * $7) * $6) + (((#98438800580102062080000 * $10) * $7) * $2)) + ((#221487301305229639680000 * $14) * $7)) + (((#172267901015178608640000 * $17) * $6) * $2)) + ((#46143187771922841600000 * $21) * $6)) + ((#3460739082894213120000 * $24) * $2)) + ((#32043880397168640000 * $21) * $14))) * X) / #7954650551927439360000) - (((($1 * $4) * $3) * (((((((#340061311094898032640000 * $7) * $35) + (((#1870337211021939179520000 * $10) * $7) * X)) + (((#2805505816532908769280000 * $14) * $6) * $35)) + (((#1402752908266454384640000 * $17) * $6) * X)) + ((#219180141916633497600000 * $21) * $35)) + ((#7306004730554449920000 * $24) * X))) / #23863951655782318080000))).
(** source/ass_leg_function.cc 6662-6692 *)
Definition P_15_4 : prog := ([(1%positive, (Sqrt #146965));
  (2%positive, (X * X));
  (3%positive, (#1 - $2));
  (4%positive, ($3 * $3));
  (6%positive, ($2 * X));
  (7%positive, ($2 * $2));
  (8%positive, ($7 * $7));
  (11%positive, (Neg $3));
  (15%positive, ($11 * $11));
  (23%positive, ($15 * $15))], ((($1 * $4) * (((((((#340061311094898032640000 * $6) * $8) + (((#1870337211021939179520000 * $11) * $8) * X)) + (((#2805505816532908769280000 * $15) * $7) * $6)) + ((((#1402752908266454384640000 * $15) * $11) * $7) * X)) + ((#219180141916633497600000 * $23) * $6)) + (((#7306004730554449920000 * $23) * $11) * X))) / #906830162919728087040000)).
(** source/ass_leg_function.cc 6697-6739 *)
Definition P_15_4_Deriv : prog := ([(1%positive, (Sqrt #146965));
  (2%positive, (X * X));
  (3%positive, (#1 - $2));
  (5%positive, ($2 * X));
  (6%positive, ($2 * $2));
  (7%positive, ($6 * $6));
  (10%positive, (Neg $3));
  (14%positive, ($10 * $10));
  (18%positive, ($14 * $10));
  (22%positive, ($14 * $14));
  (25%positive, ($22 * $10));
  (32%positive, ($3 * $3))], ((((((Neg $1) * $3) * (((((((#340061311094898032640000 * $7) * $5) + (((#1870337211021939179520000 * $10) * $7) * X)) + (((#2805505816532908769280000 * $14) * $6) * $5)) + (((#1402752908266454384640000 * $18) * $6) * X)) + ((#219180141916633497600000 * $22) * $5)) + ((#7306004730554449920000 * $25) * X))) * X) / #226707540729932021760000) + ((($1 * $32) * (((((((#7481348844087756718080000 * $7) * $2) + ((#28055058165329087692800000 * $10) * $7)) + (((#28055058165329087692800000 * $14) * $6) * $2)) + ((#8767205676665339904000000 * $18) * $6)) + ((#730600473055444992000000 * $22) * $2)) + (#7306004730554449920000 * $25))) / #906830162919728087040000))).
(** source/ass_leg_function.cc 6744-6774 *)
Definition P_15_5 : prog := ([(1%positive, (Sqrt #323323));
  (2%positive, (X * X));
  (3%positive, (#1 - $2));
  (4%positive, ($3 * $3));
  (5%positive, (Sqrt $3));
  (8%positive, ($2 * $2));
  (9%positive, ($8 * $8));
  (12%positive, (Neg $3));
  (15%positive, ($12 * $12));
  (22%positive, ($15 * $15))], (((((Neg $1) * $5) * $4) * (((((((#7481348844087756718080000 * $9) * $2) + ((#28055058165329087692800000 * $12) * $9)) + (((#28055058165329087692800000 * $15) * $8) * $2)) + (((#8767205676665339904000000 * $15) * $12) * $8)) + ((#730600473055444992000000 * $22) * $2)) + ((#7306004730554449920000 * $22) * $12))) / #19950263584234017914880000)).
(** source/ass_leg_function.cc 6779-6820 *)
Definition P_15_5_Deriv : prog := ([(1%positive, (Sqrt #323323));
  (2%positive, (X * X));
  (3%positive, (#1 - $2));
  (4%positive, (Sqrt $3));
  (7%positive, ($2 * $2));
  (8%positive, ($7 * $7));
  (11%positive, (Neg $3));
  (14%positive, ($11 * $11));
  (18%positive, ($14 * $11));
  (21%positive, ($14 * $14));
  (30%positive, ($3 * $3));
  (35%positive, ($2 * X))], (((((($1 * $4) * $3) * (((((((#7481348844087756718080000 * $8) * $2) + ((#28055058165329087692800000 * $8) * $11)) + (((#28055058165329087692800000 * $14) * $7) * $2)) + ((#8767205676665339904000000 * $18) * $7)) + ((#730600473055444992000000 * $21) * $2)) + ((#7306004730554449920000 * $21) * $11))) * X) / #3990052716846803582976000) - (((($1 * $4) * $30) * ((((((#130923604771535742566400000 * $8) * X) + (((#336660697983949052313600000 * $11) * $7) * $35)) + (((#220933583051966565580800000 * $14) * $7) * X)) + ((#40913626491104919552000000 * $18) * $35)) + ((#1534260993416434483200000 * $21) * X))) / #19950263584234017914880000))).
(** source/ass_leg_function.cc 6825-6854 *)
Definition P_15_6 : prog := ([(1%positive, (Sqrt #1385670));
  (2%positive, (X * X));
  (3%positive, (#1 - $2));
  (4%positive, ($3 * $3));
  (7%positive, ($2 * $2));
  (8%positive, ($7 * $7));
  (11%positive, (Neg $3));
  (12%positive, ($2 * X));
  (16%positive, ($11 * $11));
  (23%positive, ($16 * $16))], (((($1 * $4) * $3) * ((((((#130923604771535742566400000 * $8) * X) + (((#336660697983949052313600000 * $11) * $7) * $12)) + (((#220933583051966565580800000 * $16) * $7) * X)) + (((#40913626491104919552000000 * $16) * $11) * $12)) + ((#1534260993416434483200000 * $23) * X))) / #598507907527020537446400000)).
(** source/ass_leg_function.cc 6859-6897 *)
Definition P_15_6_Deriv : prog := ([(1%positive, (Sqrt #1385670));
  (2%positive, (X * X));
  (3%positive, (#1 - $2));
  (4%positive, ($3 * $3));
  (6%positive, ($2 * $2));
  (7%positive, ($6 * $6));
  (10%positive, (Neg $3));
  (11%positive, ($2 * X));
  (15%positive, ($10 * $10));
  (19%positive, ($15 * $10));
  (22%positive, ($15 * $15))], ((((((Neg $1) * $4) * ((((((#130923604771535742566400000 * $7) * X) + (((#336660697983949052313600000 * $10) * $6) * $11)) + (((#220933583051966565580800000 * $15) * $6) * X)) + ((#40913626491104919552000000 * $19) * $11)) + ((#1534260993416434483200000 * $22) * X))) * X) / #99751317921170089574400000) + (((($1 * $4) * $3) * (((((#1851633838911719787724800000 * $7) + (((#3240359218095509628518400000 * $10) * $6) * $2)) + ((#1350149674206462345216000000 * $15) * $6)) + ((#135014967420646234521600000 * $19) * $2)) + (#1534260993416434483200000 * $22))) / #598507907527020537446400000))).
(** source/ass_leg_function.cc 6902-6931 *)
Definition P_15_7 : prog := ([(1%positive, (Sqrt #62985));
  (2%positive, (X * X));
  (3%positive, (#1 - $2));
  (4%positive, ($3 * $3));
  (6%positive, (Sqrt $3));
  (9%positive, ($2 * $2));
  (10%positive, ($9 * $9));
  (12%positive, (Neg $3));
  (16%positive, ($12 * $12));
  (22%positive, ($16 * $16))], ((((((Neg $1) * $6) * $4) * $3) * (((((#1851633838911719787724800000 * $10) + (((#3240359218095509628518400000 * $12) * $9) * $2)) + ((#1350149674206462345216000000 * $16) * $9)) + (((#135014967420646234521600000 * $16) * $12) * $2)) + (#1534260993416434483200000 * $22))) / #1795523722581061612339200000)).
(** source/ass_leg_function.cc 6936-6975 *)
Definition P_15_7_Deriv : prog := ([(1%positive, (Sqrt #62985));
  (2%positive, (X * X));
  (3%positive, (#1 - $2));
  (4%positive, ($3 * $3));
  (5%positive, (Sqrt $3));
  (8%positive, ($2 * $2));
  (9%positive, ($8 * $8));
  (11%positive, (Neg $3));
  (15%positive, ($11 * $11));
  (18%positive, ($15 * $11));
  (21%positive, ($15 * $15));
  (30%positive, ($2 * X))], (((((($1 * $5) * $4) * (((((#1851633838911719787724800000 * $9) + (((#3240359218095509628518400000 * $11) * $8) * $2)) + ((#1350149674206462345216000000 * $8) * $15)) + ((#135014967420646234521600000 * $18) * $2)) + (#1534260993416434483200000 * $21))) * X) / #256503388940151658905600000) - ((((($1 * $5) * $4) * $3) * (((((#21293789147484777558835200000 * $30) * $8) + (((#24842754005398907151974400000 * $11) * $8) * X)) + ((#6210688501349726787993600000 * $15) * $30)) + ((#282304022788623944908800000 * $18) * X))) / #1795523722581061612339200000))).
(** source/ass_leg_function.cc 6980-7006 *)
Definition P_15_8 : prog := ([(1%positive, (Sqrt #2897310));
  (2%positive, (X * X));
  (3%positive, (#1 - $2));
  (4%positive, ($3 * $3));
  (5%positive, ($4 * $4));
  (7%positive, ($2 * X));
  (8%positive, ($2 * $2));
  (11%positive, (Neg $3));
  (15%positive, ($11 * $11))], ((($1 * $5) * (((((#21293789147484777558835200000 * $8) * $7) + (((#24842754005398907151974400000 * $11) * $8) * X)) + ((#6210688501349726787993600000 * $15) * $7)) + (((#282304022788623944908800000 * $15) * $11) * X))) / #165188182477457668335206400000)).
(** source/ass_leg_function.cc 7011-7045 *)
Definition P_15_8_Deriv : prog := ([(1%positive, (Sqrt #2897310));
  (2%positive, (X * X));
  (3%positive, (#1 - $2));
  (4%positive, ($3 * $3));
  (7%positive, ($2 * X));
  (8%positive, ($2 * $2));
  (11%positive, (Neg $3));
  (15%positive, ($11 * $11));
  (18%positive, ($15 * $11));
  (25%positive, ($4 * $4))], (((((((Neg $1) * $4) * $3) * (((((#21293789147484777558835200000 * $8) * $7) + (((#24842754005398907151974400000 * $11) * $8) * X)) + ((#6210688501349726787993600000 * $7) * $15)) + ((#282304022788623944908800000 * $18) * X))) * X) / #20648522809682208541900800000) + ((($1 * $25) * (((((#198742032043191257215795200000 * $8) * $2) + ((#149056524032393442911846400000 * $11) * $8)) + ((#20325889640780924033433600000 * $15) * $2)) + (#282304022788623944908800000 * $18))) / #165188182477457668335206400000))).
(** source/ass_leg_function.cc 7050-7076 *)
Definition P_15_9 : prog := ([(1%positive, (Sqrt #3380195));
  (2%positive, (X * X));
  (3%positive, (#1 - $2));
  (4%positive, ($3 * $3));
  (5%positive, ($4 * $4));
  (6%positive, (Sqrt $3));
  (9%positive, ($2 * $2));
  (12%positive, (Neg $3));
  (15%positive, ($12 * $12))], (((((Neg $1) * $6) * $5) * (((((#198742032043191257215795200000 * $9) * $2) + ((#149056524032393442911846400000 * $12) * $9)) + ((#20325889640780924033433600000 * $15) * $2)) + ((#282304022788623944908800000 * $15) * $12))) / #2312634554684407356692889600000)).
(** source/ass_leg_function.cc 7081-7112 *)
Definition P_15_9_Deriv : prog := ([(1%positive, (Sqrt #3380195));
  (2%positive, (X * X));
  (3%positive, (#1 - $2));
  (4%positive, ($3 * $3));
  (6%positive, (Sqrt $3));
  (9%positive, ($2 * $2));
  (12%positive, (Neg $3));
  (15%positive, ($12 * $12));
  (24%positive, ($4 * $4))], ((((((($1 * $6) * $4) * $3) * (((((#198742032043191257215795200000 * $9) * $2) + ((#149056524032393442911846400000 * $12) * $9)) + ((#20325889640780924033433600000 * $2) * $15)) + ((#282304022788623944908800000 * $12) * $15))) * X) / #256959394964934150743654400000) - (((($1 * $6) * $24) * ((((#1490565240323934429118464000000 * $9) * X) + (((#677529654692697467781120000000 * $12) * $2) * X)) + ((#42345603418293591736320000000 * $15) * X))) / #2312634554684407356692889600000))).
(** source/ass_leg_function.cc 7117-7140 *)
Definition P_15_10 : prog := ([(1%positive, (Sqrt #20281170));
  (2%positive, (X * X));
  (3%positive, (#1 - $2));
  (4%positive, ($3 * $3));
  (5%positive, ($4 * $4));
  (8%positive, ($2 * $2));
  (11%positive, (Neg $3));
  (15%positive, ($11 * $11))], (((($1 * $5) * $3) * ((((#1490565240323934429118464000000 * $8) * X) + (((#677529654692697467781120000000 * $11) * $2) * X)) + ((#42345603418293591736320000000 * $15) * X))) / #69379036640532220700786688000000)).
(** source/ass_leg_function.cc 7145-7173 *)
Definition P_15_10_Deriv : prog := ([(1%positive, (Sqrt #20281170));
  (2%positive, (X * X));
  (3%positive, (#1 - $2));
  (4%positive, ($3 * $3));
  (5%positive, ($4 * $4));
  (7%positive, ($2 * $2));
  (10%positive, (Neg $3));
  (14%positive, ($10 * $10))], ((((((Neg $1) * $5) * ((((#1490565240323934429118464000000 * $7) * X) + (((#677529654692697467781120000000 * $10) * $2) * X)) + ((#42345603418293591736320000000 * $14) * X))) * X) / #6937903664053222070078668800000) + (((($1 * $5) * $3) * (((#8807885511005067081154560000000 * $7) + ((#2201971377751266770288640000000 * $10) * $2)) + (#42345603418293591736320000000 * $14))) / #69379036640532220700786688000000))).
(** source/ass_leg_function.cc 7178-7203 *)
Definition P_15_11 : prog := ([(1%positive, (Sqrt #156009));
  (2%positive, (X * X));
  (3%positive, (#1 - $2));
  (4%positive, ($3 * $3));
  (5%positive, ($4 * $4));
  (7%positive, (Sqrt $3));
  (10%positive, ($2 * $2));
  (12%positive, (Neg $3));
  (15%positive, ($12 * $12))], ((((((Neg $1) * $7) * $5) * $3) * (((#8807885511005067081154560000000 * $10) + ((#2201971377751266770288640000000 * $12) * $2)) + (#42345603418293591736320000000 * $15))) / #69379036640532220700786688000000)).
(** source/ass_leg_function.cc 7208-7237 *)
Definition P_15_11_Deriv : prog := ([(1%positive, (Sqrt #156009));
  (2%positive, (X * X));
  (3%positive, (#1 - $2));
  (4%positive, ($3 * $3));
  (5%positive, ($4 * $4));
  (6%positive, (Sqrt $3));
  (9%positive, ($2 * $2));
  (11%positive, (Neg $3));
  (14%positive, ($11 * $11))], (((((($1 * $6) * $5) * (((#8807885511005067081154560000000 * $9) + ((#2201971377751266770288640000000 * $11) * $2)) + (#42345603418293591736320000000 * $14))) * X) / #6307185149139292790980608000000) - ((((($1 * $6) * $5) * $3) * (((#39635484799522801865195520000000 * $2) * X) + ((#4573325169175707907522560000000 * $11) * X))) / #69379036640532220700786688000000))).
(** source/ass_leg_function.cc 7242-7258 *)
Definition P_15_12 : prog := ([(1%positive, (Sqrt #52003));
  (2%positive, (X * X));
  (3%positive, (#1 - $2));
  (4%positive, ($3 * $3));
  (5%positive, ($4 * $4))], (((($1 * $5) * $4) * (((#39635484799522801865195520000000 * $2) * X) - ((#4573325169175707907522560000000 * $3) * X))) / #416274219843193324204720128000000)).
(** source/ass_leg_function.cc 7263-7283 *)
Definition P_15_12_Deriv : prog := ([(1%positive, (Sqrt #52003));
  (2%positive, (X * X));
  (3%positive, (#1 - $2));
  (4%positive, ($3 * $3));
  (5%positive, ($4 * $4))], (((((((Neg $1) * $5) * $3) * (((#39635484799522801865195520000000 * $2) * X) - ((#4573325169175707907522560000000 * $3) * X))) * X) / #34689518320266110350393344000000) + (((($1 * $5) * $4) * ((#132626429906095529318154240000000 * $2) - #4573325169175707907522560000000)) / #416274219843193324204720128000000))).
(** source/ass_leg_function.cc 7288-7306 *)
Definition P_15_13 : prog := ([(1%positive, (Sqrt #22287));
  (2%positive, (X * X));
  (3%positive, (#1 - $2));
  (4%positive, ($3 * $3));
  (5%positive, ($4 * $4));
  (7%positive, (Sqrt $3))], ((((((Neg $1) * $7) * $5) * $4) * ((#132626429906095529318154240000000 * $2) - #4573325169175707907522560000000)) / #2497645319059159945228320768000000)).
(** source/ass_leg_function.cc 7311-7330 *)
Definition P_15_13_Deriv : prog := ([(1%positive, (Sqrt #22287));
  (2%positive, (X * X));
  (3%positive, (#1 - $2));
  (4%positive, ($3 * $3));
  (5%positive, ($4 * $4));
  (7%positive, (Sqrt $3))], ((((((($1 * $7) * $5) * $3) * ((#132626429906095529318154240000000 * $2) - #4573325169175707907522560000000)) * X) / #192126563004550765017563136000000) - ((((((#435 / #4096) * $1) * $7) * $5) * $4) * X))).
(** source/ass_leg_function.cc 7335-7348 *)
Definition P_15_14 : prog := ([(1%positive, (Sqrt #1292646));
  (2%positive, (X * X));
  (3%positive, (#1 - $2));
  (4%positive, ($3 * $3));
  (6%positive, ($4 * $4))], ((((((#15 / #8192) * $1) * $6) * $4) * $3) * X)).
(** source/ass_leg_function.cc 7353-7367 *)
Definition P_15_14_Deriv : prog := ([(1%positive, (Sqrt #1292646));
  (2%positive, (X * X));
  (3%positive, (#1 - $2));
  (4%positive, ($3 * $3));
  (5%positive, ($4 * $4))], (((((((Neg #105) / #4096) * $1) * $5) * $4) * $2) + (((((#15 / #8192) * $1) * $5) * $4) * $3))).
(** source/ass_leg_function.cc 7372-7387 *)
Definition P_15_15 : prog := ([(1%positive, (Sqrt #1077205));
  (2%positive, (X * X));
  (3%positive, (#1 - $2));
  (4%positive, ($3 * $3));
  (6%positive, ($4 * $4));
  (8%positive, (Sqrt $3))], (((((((Neg #3) / #8192) * $1) * $8) * $6) * $4) * $3)).
(** source/ass_leg_function.cc 7392-7407 *)
Definition P_15_15_Deriv : prog := ([(1%positive, (Sqrt #1077205));
  (2%positive, (X * X));
  (3%positive, (#1 - $2));
  (4%positive, ($3 * $3));
  (5%positive, ($4 * $4));
  (7%positive, (Sqrt $3))], ((((((#45 / #8192) * $1) * $7) * $5) * $4) * X)).
(** source/ass_leg_function.cc 7410-7437 *)
Definition P_16_0 : prog := ([(1%positive, (X * X));
  (2%positive, ($1 * $1));
  (3%positive, ($2 * $2));
  (4%positive, ($3 * $3));
  (5%positive, ($1 - #1));
  (6%positive, ($2 * $1));
  (10%positive, ($5 * $5));
  (14%positive, ($10 * $5));
  (18%positive, ($10 * $10));
  (30%positive, ($18 * $18))], (((((((($4 + (((#60 * $5) * $3) * $6)) + ((((#1365 / #2) * $10) * $3) * $2)) + ((((#5005 / #2) * $14) * $3) * $1)) + (((#225225 / #64) * $18) * $3)) + ((((#63063 / #32) * $18) * $5) * $6)) + ((((#105105 / #256) * $18) * $10) * $2)) + ((((#6435 / #256) * $18) * $14) * $1)) + ((#6435 / #32768) * $30))).
(** source/ass_leg_function.cc 7440-7468 *)
Definition P_16_0_Deriv : prog := ([(1%positive, (X * X));
  (2%positive, ($1 * X));
  (3%positive, ($1 * $1));
  (4%positive, ($3 * $2));
  (5%positive, ($3 * $3));
  (8%positive, ($1 - #1));
  (9%positive, ($3 * X));
  (13%positive, ($8 * $8));
  (17%positive, ($13 * $8));
  (21%positive, ($13 * $13))], (((((((((#136 * $5) * $4) + (((#3570 * $8) * $5) * $9)) + (((#23205 * $13) * $5) * $2)) + ((((#425425 / #8) * $17) * $5) * X)) + (((#765765 / #16) * $21) * $4)) + ((((#1072071 / #64) * $21) * $8) * $9)) + ((((#255255 / #128) * $21) * $13) * $2)) + ((((#109395 / #2048) * $21) * $17) * X))).
(** source/ass_leg_function.cc 7473-7511 *)
Definition P_16_1 : prog := ([(1%positive, (Sqrt #17));
  (2%positive, (X * X));
  (3%positive, (#1 - $2));
  (4%positive, (Sqrt $3));
  (6%positive, ($2 * X));
  (7%positive, ($2 * $2));
  (8%positive, ($7 * $6));
  (9%positive, ($7 * $7));
  (12%positive, (Neg $3));
  (13%positive, ($7 * X));
  (17%positive, ($12 * $12));
  (21%positive, ($17 * $12));
  (25%positive, ($17 * $17))], ((((Neg $1) * $4) * (((((((((#186482650301595648000 * $9) * $8) + (((#4895169570416885760000 * $12) * $9) * $13)) + (((#31818602207709757440000 * $17) * $9) * $6)) + (((#72917630059334860800000 * $21) * $9) * X)) + ((#65625867053401374720000 * $25) * $8)) + (((#22969053468690481152000 * $25) * $12) * $13)) + (((#2734411127225057280000 * $25) * $17) * $6)) + (((#73243155193528320000 * $25) * $21) * X))) / #93241325150797824000)).
(** source/ass_leg_function.cc 7516-7572 *)
Definition P_16_1_Deriv : prog := ([(1%positive, (Sqrt #17));
  (2%positive, (X * X));
  (3%positive, (#1 - $2));
  (4%positive, (Sqrt $3));
  (7%positive, ($2 * X));
  (8%positive, ($2 * $2));
  (9%positive, ($8 * $7));
  (10%positive, ($8 * $8));
  (13%positive, (Neg $3));
  (14%positive, ($8 * X));
  (18%positive, ($13 * $13));
  (22%positive, ($18 * $13));
  (26%positive, ($18 * $18));
  (29%positive, ($26 * $13));
  (32%positive, ($26 * $18));
  (35%positive, ($26 * $22));
  (42%positive, ($8 * $2))], ((((($1 / $4) * (((((((((#186482650301595648000 * $9) * $10) + (((#4895169570416885760000 * $13) * $10) * $14)) + (((#31818602207709757440000 * $18) * $10) * $7)) + (((#72917630059334860800000 * $22) * $10) * X)) + ((#65625867053401374720000 * $26) * $9)) + ((#22969053468690481152000 * $29) * $14)) + ((#2734411127225057280000 * $32) * $7)) + ((#73243155193528320000 * $35) * X))) * X) / #93241325150797824000) - ((($1 * $4) * (((((((((#12587578895357706240000 * $10) * $42) + (((#190911613246258544640000 * $13) * $10) * $8)) + (((#787510404640816496640000 * $18) * $10) * $2)) + ((#1181265606961224744960000 * $22) * $10)) + ((#689071604060714434560000 * $26) * $42)) + ((#147658200870153093120000 * $8) * $29)) + ((#9228637554384568320000 * $32) * $2)) + (#73243155193528320000 * $35))) / #93241325150797824000))).
(** source/ass_leg_function.cc 7577-7609 *)
Definition P_16_2 : prog := ([(1%positive, (Sqrt #510));
  (2%positive, (X * X));
  (3%positive, (#1 - $2));
  (5%positive, ($2 * $2));
  (6%positive, ($5 * $2));
  (7%positive, ($5 * $5));
  (10%positive, (Neg $3));
  (14%positive, ($10 * $10));
  (18%positive, ($14 * $10));
  (21%positive, ($14 * $14))], ((($1 * $3) * (((((((((#12587578895357706240000 * $7) * $6) + (((#190911613246258544640000 * $10) * $7) * $5)) + (((#787510404640816496640000 * $14) * $7) * $2)) + ((#1181265606961224744960000 * $18) * $7)) + ((#689071604060714434560000 * $21) * $6)) + (((#147658200870153093120000 * $21) * $10) * $5)) + (((#9228637554384568320000 * $21) * $14) * $2)) + ((#73243155193528320000 * $18) * $21))) / #8391719263571804160000)).
(** source/ass_leg_function.cc 7614-7661 *)
Definition P_16_2_Deriv : prog := ([(1%positive, (Sqrt #510));
  (3%positive, (X * X));
  (4%positive, ($3 * $3));
  (5%positive, ($4 * $3));
  (6%positive, ($4 * $4));
  (9%positive, ($3 - #1));
  (13%positive, ($9 * $9));
  (17%positive, ($9 * $13));
  (20%positive, ($13 * $13));
  (23%positive, ($20 * $9));
  (26%positive, ($20 * $13));
  (36%positive, ($4 * X));
  (39%positive, ($3 * X))], (((((Neg $1) * X) * (((((((((#12587578895357706240000 * $6) * $5) + (((#190911613246258544640000 * $9) * $6) * $4)) + (((#787510404640816496640000 * $13) * $6) * $3)) + ((#1181265606961224744960000 * $17) * $6)) + ((#689071604060714434560000 * $20) * $5)) + ((#147658200870153093120000 * $23) * $4)) + ((#9228637554384568320000 * $26) * $3)) + ((#73243155193528320000 * $20) * $17))) / #4195859631785902080000) - ((($1 * $9) * ((((((((#558049331027524976640000 * $6) * $36) + (((#5440980977518368522240000 * $9) * $6) * $39)) + (((#14962697688175513436160000 * $13) * $6) * X)) + (((#14962697688175513436160000 * $17) * $4) * $39)) + ((#5611011633065817538560000 * $20) * $36)) + ((#701376454133227192320000 * $23) * $39)) + ((#19482679281478533120000 * $26) * X))) / #8391719263571804160000))).
(** source/ass_leg_function.cc 7666-7699 *)
Definition P_16_3 : prog := ([(1%positive, (Sqrt #33915));
  (2%positive, (X * X));
  (3%positive, (#1 - $2));
  (4%positive, (Sqrt $3));
  (7%positive, ($2 * $2));
  (8%positive, ($7 * X));
  (9%positive, ($7 * $7));
  (12%positive, (Neg $3));
  (13%positive, ($2 * X));
  (17%positive, ($12 * $12));
  (25%positive, ($17 * $17))], (((((Neg $1) * $4) * $3) * ((((((((#558049331027524976640000 * $9) * $8) + (((#5440980977518368522240000 * $12) * $9) * $13)) + (((#14962697688175513436160000 * $17) * $9) * X)) + ((((#14962697688175513436160000 * $17) * $12) * $7) * $13)) + ((#5611011633065817538560000 * $25) * $8)) + (((#701376454133227192320000 * $25) * $12) * $13)) + (((#19482679281478533120000 * $25) * $17) * X))) / #1116098662055049953280000)).
(** source/ass_leg_function.cc 7704-7752 *)
Definition P_16_3_Deriv : prog := ([(1%positive, (Sqrt #33915));
  (2%positive, (X * X));
  (3%positive, (#1 - $2));
  (4%positive, (Sqrt $3));
  (6%positive, ($2 * $2));
  (7%positive, ($6 * X));
  (8%positive, ($6 * $6));
  (11%positive, (Neg $3));
  (12%positive, ($2 * X));
  (16%positive, ($11 * $11));
  (20%positive, ($16 * $11));
  (24%positive, ($16 * $16));
  (27%positive, ($24 * $11));
  (30%positive, ($24 * $16))], ((((($1 * $4) * ((((((((#558049331027524976640000 * $8) * $7) + (((#5440980977518368522240000 * $11) * $8) * $12)) + (((#14962697688175513436160000 * $16) * $8) * X)) + (((#14962697688175513436160000 * $20) * $6) * $12)) + ((#5611011633065817538560000 * $24) * $7)) + ((#701376454133227192320000 * $27) * $12)) + ((#19482679281478533120000 * $30) * X))) * X) / #372032887351683317760000) - (((($1 * $4) * $3) * ((((((((#18136603258394561740800000 * $8) * $6) + (((#119701581505404107489280000 * $11) * $8) * $2)) + ((#224440465322632701542400000 * $16) * $8)) + (((#149626976881755134361600000 * $20) * $6) * $2)) + ((#35068822706661359616000000 * $24) * $6)) + ((#2337921513777423974400000 * $27) * $2)) + (#19482679281478533120000 * $30))) / #1116098662055049953280000))).
(** source/ass_leg_function.cc 7757-7786 *)
Definition P_16_4 : prog := ([(1%positive, (Sqrt #88179));
  (2%positive, (X * X));
  (3%positive, (#1 - $2));
  (4%positive, ($3 * $3));
  (6%positive, ($2 * $2));
  (7%positive, ($6 * $6));
  (10%positive, (Neg $3));
  (14%positive, ($10 * $10));
  (21%positive, ($14 * $14))], ((($1 * $4) * ((((((((#18136603258394561740800000 * $7) * $6) + (((#119701581505404107489280000 * $10) * $7) * $2)) + ((#224440465322632701542400000 * $14) * $7)) + ((((#149626976881755134361600000 * $14) * $10) * $6) * $2)) + ((#35068822706661359616000000 * $21) * $6)) + (((#2337921513777423974400000 * $21) * $10) * $2)) + ((#19482679281478533120000 * $21) * $14))) / #29018565213431298785280000)).
(** source/ass_leg_function.cc 7791-7834 *)
Definition P_16_4_Deriv : prog := ([(1%positive, (Sqrt #88179));
  (2%positive, (X * X));
  (3%positive, (#1 - $2));
  (5%positive, ($2 * $2));
  (6%positive, ($5 * $5));
  (9%positive, (Neg $3));
  (13%positive, ($9 * $9));
  (16%positive, ($13 * $9));
  (20%positive, ($13 * $13));
  (23%positive, ($20 * $9));
  (32%positive, ($3 * $3));
  (34%positive, ($2 * X))], ((((((Neg $1) * $3) * ((((((((#18136603258394561740800000 * $6) * $5) + (((#119701581505404107489280000 * $9) * $6) * $2)) + ((#224440465322632701542400000 * $13) * $6)) + (((#149626976881755134361600000 * $16) * $5) * $2)) + ((#35068822706661359616000000 * $20) * $5)) + ((#2337921513777423974400000 * $23) * $2)) + ((#19482679281478533120000 * $20) * $13))) * X) / #7254641303357824696320000) + ((($1 * $32) * (((((((#457042402111542955868160000 * $6) * $34) + (((#2094777676344571881062400000 * $9) * $6) * X)) + (((#2693285583871592418508800000 * $13) * $5) * $34)) + (((#1178312442943821683097600000 * $16) * $5) * X)) + ((#163654505964419678208000000 * $20) * $34)) + ((#4909635178932590346240000 * $23) * X))) / #29018565213431298785280000))).
(** source/ass_leg_function.cc 7839-7871 *)
Definition P_16_5 : prog := ([(1%positive, (Sqrt #12597));
  (2%positive, (X * X));
  (3%positive, (#1 - $2));
  (4%positive, ($3 * $3));
  (5%positive, (Sqrt $3));
  (8%positive, ($2 * X));
  (9%positive, ($2 * $2));
  (10%positive, ($9 * $9));
  (13%positive, (Neg $3));
  (17%positive, ($13 * $13));
  (25%positive, ($17 * $17))], (((((Neg $1) * $5) * $4) * (((((((#457042402111542955868160000 * $10) * $8) + (((#2094777676344571881062400000 * $13) * $10) * X)) + (((#2693285583871592418508800000 * $17) * $9) * $8)) + ((((#1178312442943821683097600000 * $17) * $13) * $9) * X)) + ((#163654505964419678208000000 * $8) * $25)) + (((#4909635178932590346240000 * $25) * $13) * X))) / #174111391280587792711680000)).
(** source/ass_leg_function.cc 7876-7920 *)
Definition P_16_5_Deriv : prog := ([(1%positive, (Sqrt #12597));
  (2%positive, (X * X));
  (3%positive, (#1 - $2));
  (4%positive, (Sqrt $3));
  (7%positive, ($2 * X));
  (8%positive, ($2 * $2));
  (9%positive, ($8 * $8));
  (12%positive, (Neg $3));
  (16%positive, ($12 * $12));
  (20%positive, ($16 * $12));
  (24%positive, ($16 * $16));
  (27%positive, ($24 * $12));
  (34%positive, ($3 * $3))], (((((($1 * $4) * $3) * (((((((#457042402111542955868160000 * $7) * $9) + (((#2094777676344571881062400000 * $12) * $9) * X)) + (((#2693285583871592418508800000 * $16) * $8) * $7)) + (((#1178312442943821683097600000 * $20) * $8) * X)) + ((#163654505964419678208000000 * $24) * $7)) + ((#4909635178932590346240000 * $27) * X))) * X) / #34822278256117558542336000) - (((($1 * $4) * $34) * (((((((#9217021775916116276674560000 * $9) * $2) + ((#29626141422587516603596800000 * $12) * $9)) + (((#25922873744764077028147200000 * $16) * $8) * $2)) + ((#7200798262434465841152000000 * $20) * $8)) + ((#540059869682584938086400000 * $24) * $2)) + (#4909635178932590346240000 * $27))) / #174111391280587792711680000))).
(** source/ass_leg_function.cc 7925-7953 *)
Definition P_16_6 : prog := ([(1%positive, (Sqrt #25194));
  (2%positive, (X * X));
  (3%positive, (#1 - $2));
  (4%positive, ($3 * $3));
  (7%positive, ($2 * $2));
  (8%positive, ($7 * $7));
  (11%positive, (Neg $3));
  (14%positive, ($11 * $11));
  (21%positive, ($14 * $14))], (((($1 * $4) * $3) * (((((((#9217021775916116276674560000 * $8) * $2) + ((#29626141422587516603596800000 * $11) * $8)) + (((#25922873744764077028147200000 * $14) * $7) * $2)) + (((#7200798262434465841152000000 * $14) * $11) * $7)) + ((#540059869682584938086400000 * $21) * $2)) + ((#4909635178932590346240000 * $21) * $11))) / #3830450608172931439656960000)).
(** source/ass_leg_function.cc 7958-7997 *)
Definition P_16_6_Deriv : prog := ([(1%positive, (Sqrt #25194));
  (2%positive, (X * X));
  (3%positive, (#1 - $2));
  (4%positive, ($3 * $3));
  (6%positive, ($2 * $2));
  (7%positive, ($6 * $6));
  (10%positive, (Neg $3));
  (13%positive, ($10 * $10));
  (17%positive, ($10 * $13));
  (20%positive, ($13 * $13));
  (33%positive, ($2 * X))], ((((((Neg $1) * $4) * (((((((#9217021775916116276674560000 * $7) * $2) + ((#29626141422587516603596800000 * $10) * $7)) + (((#25922873744764077028147200000 * $13) * $6) * $2)) + ((#7200798262434465841152000000 * $17) * $6)) + ((#540059869682584938086400000 * $20) * $2)) + ((#4909635178932590346240000 * $20) * $10))) * X) / #638408434695488573276160000) + (((($1 * $4) * $3) * ((((((#151422500604336195973939200000 * $7) * X) + (((#340700626359756440941363200000 * $10) * $6) * $33)) + (((#198742032043191257215795200000 * $13) * $6) * X)) + ((#33123672007198542869299200000 * $17) * $33)) + ((#1129216091154495779635200000 * $20) * X))) / #3830450608172931439656960000))).
(** source/ass_leg_function.cc 8002-8033 *)
Definition P_16_7 : prog := ([(1%positive, (Sqrt #1448655));
  (2%positive, (X * X));
  (3%positive, (#1 - $2));
  (4%positive, ($3 * $3));
  (6%positive, (Sqrt $3));
  (9%positive, ($2 * $2));
  (10%positive, ($9 * $9));
  (13%positive, (Neg $3));
  (14%positive, ($2 * X));
  (18%positive, ($13 * $13));
  (25%positive, ($18 * $18))], ((((((Neg $1) * $6) * $4) * $3) * ((((((#151422500604336195973939200000 * $10) * X) + (((#340700626359756440941363200000 * $13) * $9) * $14)) + (((#198742032043191257215795200000 * $18) * $9) * X)) + (((#33123672007198542869299200000 * $18) * $13) * $14)) + ((#1129216091154495779635200000 * $25) * X))) / #440501819939887115560550400000)).
(** source/ass_leg_function.cc 8038-8078 *)
Definition P_16_7_Deriv : prog := ([(1%positive, (Sqrt #1448655));
  (2%positive, (X * X));
  (3%positive, (#1 - $2));
  (4%positive, ($3 * $3));
  (5%positive, (Sqrt $3));
  (8%positive, ($2 * $2));
  (9%positive, ($8 * $8));
  (12%positive, (Neg $3));
  (13%positive, ($2 * X));
  (17%positive, ($12 * $12));
  (21%positive, ($17 * $12));
  (24%positive, ($17 * $17))], (((((($1 * $5) * $4) * ((((((#151422500604336195973939200000 * $9) * X) + (((#340700626359756440941363200000 * $12) * $8) * $13)) + (((#198742032043191257215795200000 * $17) * $8) * X)) + ((#33123672007198542869299200000 * $21) * $13)) + ((#1129216091154495779635200000 * $24) * X))) * X) / #62928831419983873651507200000) - ((((($1 * $5) * $4) * $3) * (((((#2044203758158538645648179200000 * $9) + (((#3179872512691060115452723200000 * $12) * $8) * $2)) + ((#1192452192259147543294771200000 * $17) * $8)) + ((#108404744750831594844979200000 * $21) * $2)) + (#1129216091154495779635200000 * $24))) / #440501819939887115560550400000))).
(** source/ass_leg_function.cc 8083-8112 *)
Definition P_16_8 : prog := ([(1%positive, (Sqrt #965770));
  (2%positive, (X * X));
  (3%positive, (#1 - $2));
  (4%positive, ($3 * $3));
  (5%positive, ($4 * $4));
  (7%positive, ($2 * $2));
  (8%positive, ($7 * $7));
  (10%positive, (Neg $3));
  (14%positive, ($10 * $10));
  (20%positive, ($14 * $14))], ((($1 * $5) * (((((#2044203758158538645648179200000 * $8) + (((#3179872512691060115452723200000 * $10) * $7) * $2)) + ((#1192452192259147543294771200000 * $14) * $7)) + (((#108404744750831594844979200000 * $14) * $10) * $2)) + (#1129216091154495779635200000 * $20))) / #5286021839278645386726604800000)).
(** source/ass_leg_function.cc 8117-8156 *)
Definition P_16_8_Deriv : prog := ([(1%positive, (Sqrt #965770));
  (2%positive, (X * X));
  (3%positive, (#1 - $2));
  (4%positive, ($3 * $3));
  (7%positive, ($2 * $2));
  (8%positive, ($7 * $7));
  (10%positive, (Neg $3));
  (14%positive, ($10 * $10));
  (17%positive, ($14 * $10));
  (20%positive, ($14 * $14));
  (26%positive, ($4 * $4));
  (28%positive, ($2 * X))], (((((((Neg $1) * $4) * $3) * (((((#2044203758158538645648179200000 * $8) + (((#3179872512691060115452723200000 * $10) * $7) * $2)) + ((#1192452192259147543294771200000 * $14) * $7)) + ((#108404744750831594844979200000 * $17) * $2)) + (#1129216091154495779635200000 * $20))) * X) / #660752729909830673340825600000) + ((($1 * $26) * (((((#22713375090650429396090880000000 * $7) * $28) + (((#23849043845182950865895424000000 * $10) * $7) * X)) + ((#5420237237541579742248960000000 * $14) * $28)) + ((#225843218230899155927040000000 * $17) * X))) / #5286021839278645386726604800000))).
(** source/ass_leg_function.cc 8161-8189 *)
Definition P_16_9 : prog := ([(1%positive, (Sqrt #482885));
  (2%positive, (X * X));
  (3%positive, (#1 - $2));
  (4%positive, ($3 * $3));
  (5%positive, ($4 * $4));
  (6%positive, (Sqrt $3));
  (9%positive, ($2 * X));
  (10%positive, ($2 * $2));
  (13%positive, (Neg $3));
  (17%positive, ($13 * $13))], (((((Neg $1) * $6) * $5) * (((((#22713375090650429396090880000000 * $9) * $10) + (((#23849043845182950865895424000000 * $13) * $10) * X)) + ((#5420237237541579742248960000000 * $17) * $9)) + (((#225843218230899155927040000000 * $17) * $13) * X))) / #52860218392786453867266048000000)).
(** source/ass_leg_function.cc 8194-8230 *)
Definition P_16_9_Deriv : prog := ([(1%positive, (Sqrt #482885));
  (2%positive, (X * X));
  (3%positive, (#1 - $2));
  (4%positive, ($3 * $3));
  (6%positive, (Sqrt $3));
  (9%positive, ($2 * X));
  (10%positive, ($2 * $2));
  (13%positive, (Neg $3));
  (17%positive, ($13 * $13));
  (20%positive, ($17 * $13));
  (27%positive, ($4 * $4))], ((((((($1 * $6) * $4) * $3) * (((((#22713375090650429396090880000000 * $10) * $9) + (((#23849043845182950865895424000000 * $13) * $10) * X)) + ((#5420237237541579742248960000000 * $17) * $9)) + ((#225843218230899155927040000000 * $20) * X))) * X) / #5873357599198494874140672000000) - (((($1 * $6) * $27) * (((((#206691713324918907504427008000000 * $10) * $2) + ((#140926168176081073298472960000000 * $13) * $10)) + ((#17615771022010134162309120000000 * $17) * $2)) + (#225843218230899155927040000000 * $20))) / #52860218392786453867266048000000))).
(** source/ass_leg_function.cc 8235-8259 *)
Definition P_16_10 : prog := ([(1%positive, (Sqrt #520030));
  (2%positive, (X * X));
  (3%positive, (#1 - $2));
  (4%positive, ($3 * $3));
  (5%positive, ($4 * $4));
  (8%positive, ($2 * $2));
  (11%positive, (Neg $3));
  (14%positive, ($11 * $11))], (((($1 * $5) * $3) * (((((#206691713324918907504427008000000 * $8) * $2) + ((#140926168176081073298472960000000 * $11) * $8)) + ((#17615771022010134162309120000000 * $14) * $2)) + ((#225843218230899155927040000000 * $14) * $11))) / #740043057499010354141724672000000)).
(** source/ass_leg_function.cc 8264-8293 *)
Definition P_16_10_Deriv : prog := ([(1%positive, (Sqrt #520030));
  (2%positive, (X * X));
  (3%positive, (#1 - $2));
  (4%positive, ($3 * $3));
  (5%positive, ($4 * $4));
  (7%positive, ($2 * $2));
  (10%positive, (Neg $3));
  (13%positive, ($10 * $10))], ((((((Neg $1) * $5) * (((((#206691713324918907504427008000000 * $7) * $2) + ((#140926168176081073298472960000000 * $10) * $7)) + ((#17615771022010134162309120000000 * $13) * $2)) + ((#225843218230899155927040000000 * $13) * $10))) * X) / #74004305749901035414172467200000) + (((($1 * $5) * $3) * ((((#1522002616301675591623507968000000 * $7) * X) + (((#634167756792364829843128320000000 * $10) * $2) * X)) + ((#36586601353405663260180480000000 * $13) * X))) / #740043057499010354141724672000000))).
(** source/ass_leg_function.cc 8298-8323 *)
Definition P_16_11 : prog := ([(1%positive, (Sqrt #260015));
  (2%positive, (X * X));
  (3%positive, (#1 - $2));
  (4%positive, ($3 * $3));
  (5%positive, ($4 * $4));
  (7%positive, (Sqrt $3));
  (10%positive, ($2 * $2));
  (13%positive, (Neg $3));
  (17%positive, ($13 * $13))], ((((((Neg $1) * $7) * $5) * $3) * ((((#1522002616301675591623507968000000 * $10) * X) + (((#634167756792364829843128320000000 * $13) * $2) * X)) + ((#36586601353405663260180480000000 * $17) * X))) / #6660387517491093187275522048000000)).
(** source/ass_leg_function.cc 8328-8358 *)
Definition P_16_11_Deriv : prog := ([(1%positive, (Sqrt #260015));
  (2%positive, (X * X));
  (3%positive, (#1 - $2));
  (4%positive, ($3 * $3));
  (5%positive, ($4 * $4));
  (6%positive, (Sqrt $3));
  (9%positive, ($2 * $2));
  (12%positive, (Neg $3));
  (16%positive, ($12 * $12))], (((((($1 * $6) * $5) * ((((#1522002616301675591623507968000000 * $9) * X) + (((#634167756792364829843128320000000 * $12) * $2) * X)) + ((#36586601353405663260180480000000 * $16) * X))) * X) / #605489774317372107934138368000000) - ((((($1 * $6) * $5) * $3) * (((#8878348595093107617803796480000000 * $9) + ((#2048849675790717142570106880000000 * $12) * $2)) + (#36586601353405663260180480000000 * $16))) / #6660387517491093187275522048000000))).
(** source/ass_leg_function.cc 8363-8386 *)
Definition P_16_12 : prog := ([(1%positive, (Sqrt #7429));
  (2%positive, (X * X));
  (3%positive, (#1 - $2));
  (4%positive, ($3 * $3));
  (5%positive, ($4 * $4));
  (8%positive, ($2 * $2));
  (10%positive, (Neg $3));
  (13%positive, ($10 * $10))], (((($1 * $5) * $4) * (((#8878348595093107617803796480000000 * $8) + ((#2048849675790717142570106880000000 * $10) * $2)) + (#36586601353405663260180480000000 * $13))) / #13320775034982186374551044096000000)).
(** source/ass_leg_function.cc 8391-8418 *)
Definition P_16_12_Deriv : prog := ([(1%positive, (Sqrt #7429));
  (2%positive, (X * X));
  (3%positive, (#1 - $2));
  (4%positive, ($3 * $3));
  (5%positive, ($4 * $4));
  (8%positive, ($2 * $2));
  (10%positive, (Neg $3));
  (13%positive, ($10 * $10))], (((((((Neg $1) * $5) * $3) * (((#8878348595093107617803796480000000 * $8) + ((#2048849675790717142570106880000000 * $10) * $2)) + (#36586601353405663260180480000000 * $13))) * X) / #1110064586248515531212587008000000) + (((($1 * $5) * $4) * (((#39611093731953864756355399680000000 * $2) * X) + ((#4244045756995056938180935680000000 * $10) * X))) / #13320775034982186374551044096000000))).
(** source/ass_leg_function.cc 8423-8441 *)
Definition P_16_13 : prog := ([(1%positive, (Sqrt #215441));
  (2%positive, (X * X));
  (3%positive, (#1 - $2));
  (4%positive, ($3 * $3));
  (5%positive, ($4 * $4));
  (7%positive, (Sqrt $3))], ((((((Neg $1) * $7) * $5) * $4) * (((#39611093731953864756355399680000000 * $2) * X) - ((#4244045756995056938180935680000000 * $3) * X))) / #772604952028966809723960557568000000)).
(** source/ass_leg_function.cc 8446-8468 *)
Definition P_16_13_Deriv : prog := ([(1%positive, (Sqrt #215441));
  (2%positive, (X * X));
  (3%positive, (#1 - $2));
  (4%positive, ($3 * $3));
  (5%positive, ($4 * $4));
  (7%positive, (Sqrt $3))], ((((((($1 * $7) * $5) * $3) * (((#39611093731953864756355399680000000 * $2) * X) - ((#4244045756995056938180935680000000 * $3) * X))) * X) / #59431150156074369978766196736000000) - ((((($1 * $7) * $5) * $4) * ((#131565418466846765083609006080000000 * $2) - #4244045756995056938180935680000000)) / #772604952028966809723960557568000000))).
(** source/ass_leg_function.cc 8473-8489 *)
Definition P_16_14 : prog := ([(1%positive, (Sqrt #2154410));
  (2%positive, (X * X));
  (3%positive, (#1 - $2));
  (4%positive, ($3 * $3));
  (6%positive, ($4 * $4))], ((((($1 * $6) * $4) * $3) * ((#131565418466846765083609006080000000 * $2) - #4244045756995056938180935680000000)) / #23178148560869004291718816727040000000)).
(** source/ass_leg_function.cc 8494-8511 *)
Definition P_16_14_Deriv : prog := ([(1%positive, (Sqrt #2154410));
  (2%positive, (X * X));
  (3%positive, (#1 - $2));
  (4%positive, ($3 * $3));
  (5%positive, ($4 * $4))], (((((((Neg $1) * $5) * $4) * ((#131565418466846765083609006080000000 * $2) - #4244045756995056938180935680000000)) * X) / #1655582040062071735122772623360000000) + ((((((#93 / #8192) * $1) * $5) * $4) * $3) * X))).
(** source/ass_leg_function.cc 8516-8531 *)
Definition P_16_15 : prog := ([(1%positive, (Sqrt #33393355));
  (2%positive, (X * X));
  (3%positive, (#1 - $2));
  (4%positive, ($3 * $3));
  (6%positive, ($4 * $4));
  (8%positive, (Sqrt $3))], ((((((((Neg #3) / #8192) * $1) * $8) * $6) * $4) * $3) * X)).
(** source/ass_leg_function.cc 8536-8552 *)
Definition P_16_15_Deriv : prog := ([(1%positive, (Sqrt #33393355));
  (2%positive, (X * X));
  (3%positive, (#1 - $2));
  (4%positive, ($3 * $3));
  (5%positive, ($4 * $4));
  (7%positive, (Sqrt $3))], (((((((#45 / #8192) * $1) * $7) * $5) * $4) * $2) - ((((((#3 / #8192) * $1) * $7) * $5) * $4) * $3))).
(** source/ass_leg_function.cc 8557-8570 *)
Definition P_16_16 : prog := ([(1%positive, (Sqrt #66786710));
  (2%positive, (X * X));
  (4%positive, (Pow2 (#1 - $2)));
  (5%positive, ($4 * $4));
  (6%positive, ($5 * $5))], (((#3 / #65536) * $1) * $6)).
(** source/ass_leg_function.cc 8575-8588 *)
Definition P_16_16_Deriv : prog := ([(1%positive, (Sqrt #66786710));
  (2%positive, (X * X));
  (3%positive, (#1 - $2));
  (4%positive, ($3 * $3));
  (6%positive, ($4 * $4))], (((((((Neg #3) / #4096) * $1) * $6) * $4) * $3) * X)).
(** source/ass_leg_function.cc 8591-8623 *)
Definition P_17_0 : prog := ([(1%positive, (X * X));
  (2%positive, ($1 * $1));
  (3%positive, ($2 * $2));
  (4%positive, ($3 * $3));
  (6%positive, ($1 - #1));
  (7%positive, ($1 * X));
  (8%positive, ($2 * $7));
  (12%positive, ($6 * $6));
  (13%positive, ($2 * X));
  (17%positive, ($12 * $6));
  (21%positive, ($12 * $12));
  (34%positive, ($21 * $21))], ((((((((($4 * X) + (((#68 * $6) * $3) * $8)) + ((((#1785 / #2) * $12) * $3) * $13)) + ((((#7735 / #2) * $17) * $3) * $7)) + ((((#425425 / #64) * $21) * $3) * X)) + ((((#153153 / #32) * $21) * $6) * $8)) + ((((#357357 / #256) * $21) * $12) * $13)) + ((((#36465 / #256) * $21) * $17) * $7)) + (((#109395 / #32768) * $34) * X))).
(** source/ass_leg_function.cc 8626-8654 *)
Definition P_17_0_Deriv : prog := ([(1%positive, (X * X));
  (2%positive, ($1 * $1));
  (3%positive, ($2 * $2));
  (4%positive, ($3 * $3));
  (6%positive, ($1 - #1));
  (7%positive, ($2 * $1));
  (11%positive, ($6 * $6));
  (15%positive, ($11 * $6));
  (19%positive, ($11 * $11));
  (31%positive, ($19 * $19))], (((((((((#153 * $4) + (((#4590 * $6) * $3) * $7)) + ((((#69615 / #2) * $11) * $3) * $2)) + ((((#765765 / #8) * $15) * $3) * $1)) + (((#6891885 / #64) * $19) * $3)) + ((((#3216213 / #64) * $19) * $6) * $7)) + ((((#2297295 / #256) * $19) * $11) * $2)) + ((((#984555 / #2048) * $19) * $15) * $1)) + ((#109395 / #32768) * $31))).
(** source/ass_leg_function.cc 8659-8698 *)
Definition P_17_1 : prog := ([(1%positive, (Sqrt #34));
  (2%positive, (X * X));
  (3%positive, (#1 - $2));
  (4%positive, (Sqrt $3));
  (6%positive, ($2 * $2));
  (7%positive, ($6 * $6));
  (8%positive, ($7 * $7));
  (10%positive, (Neg $3));
  (11%positive, ($6 * $2));
  (15%positive, ($10 * $10));
  (19%positive, ($15 * $10));
  (23%positive, ($15 * $15));
  (35%positive, ($23 * $23))], ((((Neg $1) * $4) * (((((((((#7132961374036033536000 * $8) + (((#213988841221081006080000 * $10) * $7) * $11)) + (((#1622748712593197629440000 * $15) * $7) * $6)) + (((#4462558959631293480960000 * $19) * $7) * $2)) + ((#5020378829585205166080000 * $23) * $7)) + (((#2342843453806429077504000 * $23) * $10) * $11)) + (((#418364902465433763840000 * $23) * $15) * $6)) + (((#22412405489219665920000 * $23) * $19) * $2)) + (#155641704786247680000 * $35))) / #4755307582690689024000)).
(** source/ass_leg_function.cc 8703-8764 *)
Definition P_17_1_Deriv : prog := ([(1%positive, (Sqrt #34));
  (2%positive, (X * X));
  (3%positive, (#1 - $2));
  (4%positive, (Sqrt $3));
  (7%positive, ($2 * $2));
  (8%positive, ($7 * $7));
  (9%positive, ($8 * $8));
  (11%positive, (Neg $3));
  (12%positive, ($7 * $2));
  (16%positive, ($11 * $11));
  (20%positive, ($16 * $11));
  (24%positive, ($16 * $16));
  (27%positive, ($24 * $11));
  (30%positive, ($24 * $16));
  (33%positive, ($24 * $20));
  (36%positive, ($24 * $24));
  (42%positive, ($2 * X));
  (43%positive, ($7 * $42));
  (46%positive, ($7 * X))], ((((($1 / $4) * (((((((((#7132961374036033536000 * $9) + (((#213988841221081006080000 * $11) * $8) * $12)) + (((#1622748712593197629440000 * $16) * $8) * $7)) + (((#4462558959631293480960000 * $20) * $8) * $2)) + ((#5020378829585205166080000 * $24) * $8)) + ((#2342843453806429077504000 * $27) * $12)) + ((#418364902465433763840000 * $30) * $7)) + ((#22412405489219665920000 * $33) * $2)) + (#155641704786247680000 * $36))) * X) / #4755307582690689024000) - ((($1 * $4) * (((((((((#542105064426738548736000 * $8) * $43) + (((#9486838627467924602880000 * $11) * $8) * $46)) + (((#46248338308906132439040000 * $16) * $8) * $42)) + (((#84788620232994576138240000 * $20) * $8) * X)) + ((#63591465174745932103680000 * $24) * $43)) + ((#19077439552423779631104000 * $46) * $27)) + ((#1987233286710810378240000 * $30) * $42)) + ((#47315078255019294720000 * $33) * X))) / #4755307582690689024000))).
(** source/ass_leg_function.cc 8769-8805 *)
Definition P_17_2 : prog := ([(1%positive, (Sqrt #646));
  (2%positive, (X * X));
  (3%positive, (#1 - $2));
  (5%positive, ($2 * X));
  (6%positive, ($2 * $2));
  (7%positive, ($6 * $5));
  (8%positive, ($6 * $6));
  (11%positive, (Neg $3));
  (12%positive, ($6 * X));
  (16%positive, ($11 * $11));
  (20%positive, ($11 * $16));
  (24%positive, ($16 * $16))], ((($1 * $3) * (((((((((#542105064426738548736000 * $8) * $7) + (((#9486838627467924602880000 * $11) * $8) * $12)) + (((#46248338308906132439040000 * $16) * $8) * $5)) + (((#84788620232994576138240000 * $20) * $8) * X)) + ((#63591465174745932103680000 * $24) * $7)) + (((#19077439552423779631104000 * $24) * $11) * $12)) + (((#1987233286710810378240000 * $24) * $16) * $5)) + (((#47315078255019294720000 * $24) * $20) * X))) / #361403376284492365824000)).
(** source/ass_leg_function.cc 8810-8862 *)
Definition P_17_2_Deriv : prog := ([(1%positive, (Sqrt #646));
  (3%positive, (X * X));
  (4%positive, ($3 * X));
  (5%positive, ($3 * $3));
  (6%positive, ($5 * $4));
  (7%positive, ($5 * $5));
  (10%positive, ($3 - #1));
  (11%positive, ($5 * X));
  (15%positive, ($10 * $10));
  (19%positive, ($15 * $10));
  (23%positive, ($15 * $15));
  (26%positive, ($23 * $10));
  (29%positive, ($23 * $15));
  (32%positive, ($23 * $19));
  (40%positive, ($3 * $5))], (((((Neg $1) * X) * (((((((((#542105064426738548736000 * $7) * $6) + (((#9486838627467924602880000 * $10) * $7) * $11)) + (((#46248338308906132439040000 * $15) * $7) * $4)) + (((#84788620232994576138240000 * $19) * $7) * X)) + ((#63591465174745932103680000 * $23) * $6)) + ((#19077439552423779631104000 * $26) * $11)) + ((#1987233286710810378240000 * $29) * $4)) + ((#47315078255019294720000 * $32) * X))) / #180701688142246182912000) - ((($1 * $10) * (((((((((#27105253221336927436800000 * $7) * $40) + (((#308322255392707549593600000 * $10) * $7) * $5)) + (((#1017463442795934913658880000 * $15) * $7) * $3)) + ((#1271829303494918642073600000 * $19) * $7)) + ((#635914651747459321036800000 * $23) * $40)) + ((#119233997202648622694400000 * $26) * $5)) + ((#6624110955702701260800000 * $29) * $3)) + (#47315078255019294720000 * $32))) / #361403376284492365824000))).
(** source/ass_leg_function.cc 8867-8901 *)
Definition P_17_3 : prog := ([(1%positive, (Sqrt #1938));
  (2%positive, (X * X));
  (3%positive, (#1 - $2));
  (4%positive, (Sqrt $3));
  (7%positive, ($2 * $2));
  (8%positive, ($7 * $2));
  (9%positive, ($7 * $7));
  (12%positive, (Neg $3));
  (16%positive, ($12 * $12));
  (20%positive, ($16 * $12));
  (23%positive, ($16 * $16))], (((((Neg $1) * $4) * $3) * (((((((((#27105253221336927436800000 * $9) * $8) + (((#308322255392707549593600000 * $12) * $9) * $7)) + (((#1017463442795934913658880000 * $16) * $9) * $2)) + ((#1271829303494918642073600000 * $20) * $9)) + ((#635914651747459321036800000 * $23) * $8)) + (((#119233997202648622694400000 * $23) * $12) * $7)) + (((#6624110955702701260800000 * $23) * $16) * $2)) + ((#47315078255019294720000 * $23) * $20))) / #10842101288534770974720000)).
(** source/ass_leg_function.cc 8906-8957 *)
Definition P_17_3_Deriv : prog := ([(1%positive, (Sqrt #1938));
  (2%positive, (X * X));
  (3%positive, (#1 - $2));
  (4%positive, (Sqrt $3));
  (6%positive, ($2 * $2));
  (7%positive, ($6 * $2));
  (8%positive, ($6 * $6));
  (11%positive, (Neg $3));
  (15%positive, ($11 * $11));
  (19%positive, ($15 * $11));
  (22%positive, ($15 * $15));
  (25%positive, ($22 * $11));
  (28%positive, ($22 * $15));
  (39%positive, ($6 * X));
  (42%positive, ($2 * X))], ((((($1 * $4) * (((((((((#27105253221336927436800000 * $8) * $7) + (((#308322255392707549593600000 * $11) * $8) * $6)) + (((#1017463442795934913658880000 * $15) * $8) * $2)) + ((#1271829303494918642073600000 * $19) * $8)) + ((#635914651747459321036800000 * $22) * $7)) + ((#119233997202648622694400000 * $25) * $6)) + ((#6624110955702701260800000 * $28) * $2)) + ((#47315078255019294720000 * $22) * $19))) * X) / #3614033762844923658240000) - (((($1 * $4) * $3) * ((((((((#996118055884132083302400000 * $8) * $39) + (((#7769720835896230249758720000 * $11) * $8) * $42)) + (((#17805610248928860989030400000 * $15) * $8) * X)) + (((#15261951641939023704883200000 * $19) * $6) * $42)) + ((#5007827882511242153164800000 * $22) * $39)) + ((#556425320279026905907200000 * $25) * $42)) + ((#13910633006975672647680000 * $28) * X))) / #10842101288534770974720000))).
(** source/ass_leg_function.cc 8962-8995 *)
Definition P_17_4 : prog := ([(1%positive, (Sqrt #323));
  (2%positive, (X * X));
  (3%positive, (#1 - $2));
  (4%positive, ($3 * $3));
  (6%positive, ($2 * $2));
  (7%positive, ($6 * X));
  (8%positive, ($6 * $6));
  (11%positive, (Neg $3));
  (12%positive, ($2 * X));
  (16%positive, ($11 * $11));
  (24%positive, ($16 * $16))], ((($1 * $4) * ((((((((#996118055884132083302400000 * $7) * $8) + (((#7769720835896230249758720000 * $11) * $8) * $12)) + (((#17805610248928860989030400000 * $16) * $8) * X)) + ((((#15261951641939023704883200000 * $16) * $11) * $6) * $12)) + ((#5007827882511242153164800000 * $24) * $7)) + (((#556425320279026905907200000 * $24) * $11) * $12)) + (((#13910633006975672647680000 * $24) * $16) * X))) / #75894709019743396823040000)).
(** source/ass_leg_function.cc 9000-9048 *)
Definition P_17_4_Deriv : prog := ([(1%positive, (Sqrt #323));
  (2%positive, (X * X));
  (3%positive, (#1 - $2));
  (5%positive, ($2 * $2));
  (6%positive, ($5 * X));
  (7%positive, ($5 * $5));
  (10%positive, (Neg $3));
  (11%positive, ($2 * X));
  (15%positive, ($10 * $10));
  (19%positive, ($15 * $10));
  (23%positive, ($15 * $15));
  (26%positive, ($23 * $10));
  (29%positive, ($23 * $15));
  (36%positive, ($3 * $3))], ((((((Neg $1) * $3) * ((((((((#996118055884132083302400000 * $7) * $6) + (((#7769720835896230249758720000 * $10) * $7) * $11)) + (((#17805610248928860989030400000 * $15) * $7) * X)) + (((#15261951641939023704883200000 * $19) * $5) * $11)) + ((#5007827882511242153164800000 * $23) * $6)) + ((#556425320279026905907200000 * $26) * $11)) + ((#13910633006975672647680000 * $29) * X))) * X) / #18973677254935849205760000) + ((($1 * $36) * ((((((((#28488976398286177582448640000 * $7) * $5) + (((#156689370190573976703467520000 * $10) * $7) * $2)) + ((#251822202091993891130572800000 * $15) * $7)) + (((#146896284553663103159500800000 * $19) * $5) * $2)) + ((#30603392615346479824896000000 * $23) * $5)) + ((#1836203556920788789493760000 * $26) * $2)) + (#13910633006975672647680000 * $29))) / #75894709019743396823040000))).
(** source/ass_leg_function.cc 9053-9084 *)
Definition P_17_5 : prog := ([(1%positive, (Sqrt #92378));
  (2%positive, (X * X));
  (3%positive, (#1 - $2));
  (4%positive, ($3 * $3));
  (5%positive, (Sqrt $3));
  (8%positive, ($2 * $2));
  (9%positive, ($8 * $8));
  (12%positive, (Neg $3));
  (16%positive, ($12 * $12));
  (23%positive, ($16 * $16))], (((((Neg $1) * $5) * $4) * ((((((((#28488976398286177582448640000 * $9) * $8) + (((#156689370190573976703467520000 * $12) * $9) * $2)) + ((#251822202091993891130572800000 * $16) * $9)) + ((((#146896284553663103159500800000 * $16) * $12) * $8) * $2)) + ((#30603392615346479824896000000 * $23) * $8)) + (((#1836203556920788789493760000 * $23) * $12) * $2)) + ((#13910633006975672647680000 * $23) * $16))) / #21705886779646611491389440000)).
(** source/ass_leg_function.cc 9089-9134 *)
Definition P_17_5_Deriv : prog := ([(1%positive, (Sqrt #92378));
  (2%positive, (X * X));
  (3%positive, (#1 - $2));
  (4%positive, (Sqrt $3));
  (7%positive, ($2 * $2));
  (8%positive, ($7 * $7));
  (11%positive, (Neg $3));
  (15%positive, ($11 * $11));
  (18%positive, ($11 * $15));
  (22%positive, ($15 * $15));
  (25%positive, ($22 * $11));
  (34%positive, ($3 * $3));
  (37%positive, ($2 * X))], (((((($1 * $4) * $3) * ((((((((#28488976398286177582448640000 * $7) * $8) + (((#156689370190573976703467520000 * $11) * $8) * $2)) + ((#251822202091993891130572800000 * $15) * $8)) + (((#146896284553663103159500800000 * $18) * $7) * $2)) + ((#30603392615346479824896000000 * $22) * $7)) + ((#1836203556920788789493760000 * $25) * $2)) + ((#13910633006975672647680000 * $22) * $15))) * X) / #4341177355929322298277888000) - (((($1 * $4) * $34) * (((((((#655246457160582084396318720000 * $8) * $37) + (((#2574182510273715331556966400000 * $11) * $8) * X)) + (((#2895955324057929748001587200000 * $15) * $7) * $37)) + (((#1126204848244750457556172800000 * $18) * $7) * X)) + ((#140775606030593807194521600000 * $22) * $37)) + ((#3839334709925285650759680000 * $25) * X))) / #21705886779646611491389440000))).
(** source/ass_leg_function.cc 9139-9169 *)
Definition P_17_6 : prog := ([(1%positive, (Sqrt #6374082));
  (2%positive, (X * X));
  (3%positive, (#1 - $2));
  (4%positive, ($3 * $3));
  (7%positive, ($2 * X));
  (8%positive, ($2 * $2));
  (9%positive, ($8 * $8));
  (12%positive, (Neg $3));
  (16%positive, ($12 * $12));
  (24%positive, ($16 * $16))], (((($1 * $4) * $3) * (((((((#655246457160582084396318720000 * $7) * $9) + (((#2574182510273715331556966400000 * $12) * $9) * X)) + (((#2895955324057929748001587200000 * $16) * $8) * $7)) + ((((#1126204848244750457556172800000 * $16) * $12) * $8) * X)) + ((#140775606030593807194521600000 * $24) * $7)) + (((#3839334709925285650759680000 * $24) * $12) * X))) / #2995412375591232385811742720000)).
(** source/ass_leg_function.cc 9174-9216 *)
Definition P_17_6_Deriv : prog := ([(1%positive, (Sqrt #6374082));
  (2%positive, (X * X));
  (3%positive, (#1 - $2));
  (4%positive, ($3 * $3));
  (6%positive, ($2 * X));
  (7%positive, ($2 * $2));
  (8%positive, ($7 * $7));
  (11%positive, (Neg $3));
  (15%positive, ($11 * $11));
  (19%positive, ($15 * $11));
  (23%positive, ($15 * $15));
  (26%positive, ($23 * $11))], ((((((Neg $1) * $4) * (((((((#655246457160582084396318720000 * $8) * $6) + (((#2574182510273715331556966400000 * $11) * $8) * X)) + (((#2895955324057929748001587200000 * $15) * $7) * $6)) + (((#1126204848244750457556172800000 * $19) * $7) * X)) + ((#140775606030593807194521600000 * $23) * $6)) + ((#3839334709925285650759680000 * $26) * X))) * X) / #499235395931872064301957120000) + (((($1 * $4) * $3) * (((((((#12356076049313833591473438720000 * $2) * $8) + ((#34751463888695156976019046400000 * $11) * $8)) + (((#27028916357874010981348147200000 * $15) * $7) * $2)) + ((#6757229089468502745337036800000 * $19) * $7)) + ((#460720165191034278091161600000 * $23) * $2)) + (#3839334709925285650759680000 * $26))) / #2995412375591232385811742720000))).
(** source/ass_leg_function.cc 9221-9251 *)
Definition P_17_7 : prog := ([(1%positive, (Sqrt #96577));
  (2%positive, (X * X));
  (3%positive, (#1 - $2));
  (4%positive, ($3 * $3));
  (6%positive, (Sqrt $3));
  (9%positive, ($2 * $2));
  (10%positive, ($9 * $9));
  (13%positive, (Neg $3));
  (16%positive, ($13 * $13));
  (23%positive, ($16 * $16))], ((((((Neg $1) * $6) * $4) * $3) * (((((((#12356076049313833591473438720000 * $10) * $2) + ((#34751463888695156976019046400000 * $13) * $10)) + (((#27028916357874010981348147200000 * $16) * $9) * $2)) + (((#6757229089468502745337036800000 * $16) * $13) * $9)) + ((#460720165191034278091161600000 * $23) * $2)) + ((#3839334709925285650759680000 * $23) * $13))) / #5990824751182464771623485440000)).
(** source/ass_leg_function.cc 9256-9297 *)
Definition P_17_7_Deriv : prog := ([(1%positive, (Sqrt #96577));
  (2%positive, (X * X));
  (3%positive, (#1 - $2));
  (4%positive, ($3 * $3));
  (5%positive, (Sqrt $3));
  (8%positive, ($2 * $2));
  (9%positive, ($8 * $8));
  (12%positive, (Neg $3));
  (15%positive, ($12 * $12));
  (19%positive, ($15 * $12));
  (22%positive, ($15 * $15));
  (36%positive, ($2 * X))], (((((($1 * $5) * $4) * (((((((#12356076049313833591473438720000 * $9) * $2) + ((#34751463888695156976019046400000 * $12) * $9)) + (((#27028916357874010981348147200000 * $15) * $8) * $2)) + ((#6757229089468502745337036800000 * $19) * $8)) + ((#460720165191034278091161600000 * $22) * $2)) + ((#3839334709925285650759680000 * $22) * $12))) * X) / #855832107311780681660497920000) - ((((($1 * $5) * $4) * $3) * ((((((#193063688270528649866772480000000 * $9) * X) + (((#386127376541057299733544960000000 * $12) * $8) * $36)) + (((#202716872684055082360111104000000 * $15) * $8) * X)) + ((#30714677679402285206077440000000 * $19) * $36)) + ((#959833677481321412689920000000 * $22) * X))) / #5990824751182464771623485440000))).
(** source/ass_leg_function.cc 9302-9333 *)
Definition P_17_8 : prog := ([(1%positive, (Sqrt #965770));
  (2%positive, (X * X));
  (3%positive, (#1 - $2));
  (4%positive, ($3 * $3));
  (5%positive, ($4 * $4));
  (7%positive, ($2 * $2));
  (8%positive, ($7 * $7));
  (11%positive, (Neg $3));
  (12%positive, ($2 * X));
  (16%positive, ($11 * $11));
  (23%positive, ($16 * $16))], ((($1 * $5) * ((((((#193063688270528649866772480000000 * $8) * X) + (((#386127376541057299733544960000000 * $11) * $7) * $12)) + (((#202716872684055082360111104000000 * $16) * $7) * X)) + (((#30714677679402285206077440000000 * $16) * $11) * $12)) + ((#959833677481321412689920000000 * $23) * X))) / #299541237559123238581174272000000)).
(** source/ass_leg_function.cc 9338-9378 *)
Definition P_17_8_Deriv : prog := ([(1%positive, (Sqrt #965770));
  (2%positive, (X * X));
  (3%positive, (#1 - $2));
  (4%positive, ($3 * $3));
  (7%positive, ($2 * $2));
  (8%positive, ($7 * $7));
  (11%positive, (Neg $3));
  (12%positive, ($2 * X));
  (16%positive, ($11 * $11));
  (20%positive, ($16 * $11));
  (23%positive, ($16 * $16));
  (30%positive, ($4 * $4))], (((((((Neg $1) * $4) * $3) * ((((((#193063688270528649866772480000000 * $8) * X) + (((#386127376541057299733544960000000 * $11) * $7) * $12)) + (((#202716872684055082360111104000000 * $16) * $7) * X)) + ((#30714677679402285206077440000000 * $20) * $12)) + ((#959833677481321412689920000000 * $23) * X))) * X) / #37442654694890404822646784000000) + ((($1 * $30) * (((((#2509827947516872448268042240000000 * $8) + (((#3513759126523621427575259136000000 * $11) * $7) * $2)) + ((#1197872429496689123037020160000000 * $16) * $7)) + ((#99822702458057426919751680000000 * $20) * $2)) + (#959833677481321412689920000000 * $23))) / #299541237559123238581174272000000))).
(** source/ass_leg_function.cc 9383-9414 *)
Definition P_17_9 : prog := ([(1%positive, (Sqrt #37145));
  (2%positive, (X * X));
  (3%positive, (#1 - $2));
  (4%positive, ($3 * $3));
  (5%positive, ($4 * $4));
  (6%positive, (Sqrt $3));
  (9%positive, ($2 * $2));
  (10%positive, ($9 * $9));
  (12%positive, (Neg $3));
  (16%positive, ($12 * $12));
  (22%positive, ($16 * $16))], (((((Neg $1) * $6) * $5) * (((((#2509827947516872448268042240000000 * $10) + (((#3513759126523621427575259136000000 * $12) * $9) * $2)) + ((#1197872429496689123037020160000000 * $16) * $9)) + (((#99822702458057426919751680000000 * $16) * $12) * $2)) + (#959833677481321412689920000000 * $22))) / #898623712677369715743522816000000)).
(** source/ass_leg_function.cc 9419-9460 *)
Definition P_17_9_Deriv : prog := ([(1%positive, (Sqrt #37145));
  (2%positive, (X * X));
  (3%positive, (#1 - $2));
  (4%positive, ($3 * $3));
  (6%positive, (Sqrt $3));
  (9%positive, ($2 * $2));
  (10%positive, ($9 * $9));
  (12%positive, (Neg $3));
  (16%positive, ($12 * $12));
  (19%positive, ($16 * $12));
  (22%positive, ($16 * $16));
  (28%positive, ($4 * $4));
  (31%positive, ($2 * X))], ((((((($1 * $6) * $4) * $3) * (((((#2509827947516872448268042240000000 * $10) + (((#3513759126523621427575259136000000 * $12) * $9) * $2)) + ((#1197872429496689123037020160000000 * $16) * $9)) + ((#99822702458057426919751680000000 * $19) * $2)) + (#959833677481321412689920000000 * $22))) * X) / #99847079186374412860391424000000) - (((($1 * $6) * $28) * (((((#27106141833182222441294856192000000 * $9) * $31) + (((#25874044477128485057599635456000000 * $12) * $9) * X)) + ((#5390425932735101053666590720000000 * $16) * $31)) + ((#207324074335965425141022720000000 * $19) * X))) / #898623712677369715743522816000000))).
(** source/ass_leg_function.cc 9465-9491 *)
Definition P_17_10 : prog := ([(1%positive, (Sqrt #222870));
  (2%positive, (X * X));
  (3%positive, (#1 - $2));
  (4%positive, ($3 * $3));
  (5%positive, ($4 * $4));
  (8%positive, ($2 * X));
  (9%positive, ($2 * $2));
  (12%positive, (Neg $3));
  (16%positive, ($12 * $12))], (((($1 * $5) * $3) * (((((#27106141833182222441294856192000000 * $9) * $8) + (((#25874044477128485057599635456000000 * $12) * $9) * X)) + ((#5390425932735101053666590720000000 * $16) * $8)) + (((#207324074335965425141022720000000 * $16) * $12) * X))) / #32350453656385309766766821376000000)).
(** source/ass_leg_function.cc 9496-9530 *)
Definition P_17_10_Deriv : prog := ([(1%positive, (Sqrt #222870));
  (2%positive, (X * X));
  (3%positive, (#1 - $2));
  (4%positive, ($3 * $3));
  (5%positive, ($4 * $4));
  (7%positive, ($2 * X));
  (8%positive, ($2 * $2));
  (11%positive, (Neg $3));
  (15%positive, ($11 * $11));
  (18%positive, ($15 * $11))], ((((((Neg $1) * $5) * (((((#27106141833182222441294856192000000 * $8) * $7) + (((#25874044477128485057599635456000000 * $11) * $8) * X)) + ((#5390425932735101053666590720000000 * $15) * $7)) + ((#207324074335965425141022720000000 * $18) * X))) * X) / #3235045365638530976676682137600000) + (((($1 * $5) * $3) * (((((#241491081786532527204263264256000000 * $2) * $8) + ((#150931926116582829502664540160000000 * $11) * $8)) + ((#17415222244221095711845908480000000 * $2) * $15)) + (#207324074335965425141022720000000 * $18))) / #32350453656385309766766821376000000))).
(** source/ass_leg_function.cc 9535-9561 *)
Definition P_17_11 : prog := ([(1%positive, (Sqrt #222870));
  (2%positive, (X * X));
  (3%positive, (#1 - $2));
  (4%positive, ($3 * $3));
  (5%positive, ($4 * $4));
  (7%positive, (Sqrt $3));
  (10%positive, ($2 * $2));
  (13%positive, (Neg $3));
  (16%positive, ($13 * $13))], ((((((Neg $1) * $7) * $5) * $3) * (((((#241491081786532527204263264256000000 * $10) * $2) + ((#150931926116582829502664540160000000 * $13) * $10)) + ((#17415222244221095711845908480000000 * $16) * $2)) + ((#207324074335965425141022720000000 * $16) * $13))) / #452906351189394336734735499264000000)).
(** source/ass_leg_function.cc 9566-9597 *)
Definition P_17_11_Deriv : prog := ([(1%positive, (Sqrt #222870));
  (2%positive, (X * X));
  (3%positive, (#1 - $2));
  (4%positive, ($3 * $3));
  (5%positive, ($4 * $4));
  (6%positive, (Sqrt $3));
  (9%positive, ($2 * $2));
  (12%positive, (Neg $3));
  (15%positive, ($12 * $12))], (((((($1 * $6) * $5) * (((((#241491081786532527204263264256000000 * $9) * $2) + ((#150931926116582829502664540160000000 * $12) * $9)) + ((#17415222244221095711845908480000000 * $15) * $2)) + ((#207324074335965425141022720000000 * $15) * $12))) * X) / #41173304653581303339521409024000000) - ((((($1 * $6) * $5) * $3) * ((((#1750810342952360822230908665856000000 * $9) * X) + (((#673388593443215700858041794560000000 * $12) * $2) * X)) + ((#36074388934457983974537953280000000 * $15) * X))) / #452906351189394336734735499264000000))).
(** source/ass_leg_function.cc 9602-9625 *)
Definition P_17_12 : prog := ([(1%positive, (Sqrt #1077205));
  (2%positive, (X * X));
  (3%positive, (#1 - $2));
  (4%positive, ($3 * $3));
  (5%positive, ($4 * $4));
  (8%positive, ($2 * $2));
  (11%positive, (Neg $3));
  (15%positive, ($11 * $11))], (((($1 * $5) * $4) * ((((#1750810342952360822230908665856000000 * $8) * X) + (((#673388593443215700858041794560000000 * $11) * $2) * X)) + ((#36074388934457983974537953280000000 * $15) * X))) / #13134284184492435765307329478656000000)).
(** source/ass_leg_function.cc 9630-9658 *)
Definition P_17_12_Deriv : prog := ([(1%positive, (Sqrt #1077205));
  (2%positive, (X * X));
  (3%positive, (#1 - $2));
  (4%positive, ($3 * $3));
  (5%positive, ($4 * $4));
  (8%positive, ($2 * $2));
  (11%positive, (Neg $3));
  (15%positive, ($11 * $11))], (((((((Neg $1) * $5) * $3) * ((((#1750810342952360822230908665856000000 * $8) * X) + (((#673388593443215700858041794560000000 * $11) * $2) * X)) + ((#36074388934457983974537953280000000 * $15) * X))) * X) / #1094523682041036313775610789888000000) + (((($1 * $5) * $4) * (((#10100828901648235512870626918400000000 * $8) + ((#2164463336067479038472277196800000000 * $11) * $2)) + (#36074388934457983974537953280000000 * $15))) / #13134284184492435765307329478656000000))).
(** source/ass_leg_function.cc 9663-9688 *)
Definition P_17_13 : prog := ([(1%positive, (Sqrt #6463230));
  (2%positive, (X * X));
  (3%positive, (#1 - $2));
  (4%positive, ($3 * $3));
  (5%positive, ($4 * $4));
  (7%positive, (Sqrt $3));
  (10%positive, ($2 * $2));
  (12%positive, (Neg $3));
  (15%positive, ($12 * $12))], ((((((Neg $1) * $7) * $5) * $4) * (((#10100828901648235512870626918400000000 * $10) + ((#2164463336067479038472277196800000000 * $12) * $2)) + (#36074388934457983974537953280000000 * $15))) / #394028525534773072959219884359680000000)).
(** source/ass_leg_function.cc 9693-9722 *)
Definition P_17_13_Deriv : prog := ([(1%positive, (Sqrt #6463230));
  (2%positive, (X * X));
  (3%positive, (#1 - $2));
  (4%positive, ($3 * $3));
  (5%positive, ($4 * $4));
  (7%positive, (Sqrt $3));
  (10%positive, ($2 * $2));
  (12%positive, (Neg $3));
  (15%positive, ($12 * $12))], ((((((($1 * $7) * $5) * $3) * (((#10100828901648235512870626918400000000 * $10) + ((#2164463336067479038472277196800000000 * $12) * $2)) + (#36074388934457983974537953280000000 * $15))) * X) / #30309886579597928689170760335360000000) - ((((($1 * $7) * $5) * $4) * (((#44732242278727900128427062067200000000 * $2) * X) + ((#4473224227872790012842706206720000000 * $12) * X))) / #394028525534773072959219884359680000000))).
(** source/ass_leg_function.cc 9727-9743 *)
Definition P_17_14 : prog := ([(1%positive, (Sqrt #200360130));
  (2%positive, (X * X));
  (3%positive, (#1 - $2));
  (4%positive, ($3 * $3));
  (6%positive, ($4 * $4))], ((((($1 * $6) * $4) * $3) * (((#44732242278727900128427062067200000000 * $2) * X) - ((#4473224227872790012842706206720000000 * $3) * X))) / #24429768583155930523471632830300160000000)).
(** source/ass_leg_function.cc 9748-9768 *)
Definition P_17_14_Deriv : prog := ([(1%positive, (Sqrt #200360130));
  (2%positive, (X * X));
  (3%positive, (#1 - $2));
  (4%positive, ($3 * $3));
  (5%positive, ($4 * $4))], (((((((Neg $1) * $5) * $4) * (((#44732242278727900128427062067200000000 * $2) * X) - ((#4473224227872790012842706206720000000 * $3) * X))) * X) / #1744983470225423608819402345021440000000) + ((((($1 * $5) * $4) * $3) * ((#147616399519802070423809304821760000000 * $2) - #4473224227872790012842706206720000000)) / #24429768583155930523471632830300160000000))).
(** source/ass_leg_function.cc 9773-9791 *)
Definition P_17_15 : prog := ([(1%positive, (Sqrt #33393355));
  (2%positive, (X * X));
  (3%positive, (#1 - $2));
  (4%positive, ($3 * $3));
  (6%positive, ($4 * $4));
  (8%positive, (Sqrt $3))], (((((((Neg $1) * $8) * $6) * $4) * $3) * ((#147616399519802070423809304821760000000 * $2) - #4473224227872790012842706206720000000)) / #97719074332623722093886531321200640000000)).
(** source/ass_leg_function.cc 9796-9815 *)
Definition P_17_15_Deriv : prog := ([(1%positive, (Sqrt #33393355));
  (2%positive, (X * X));
  (3%positive, (#1 - $2));
  (4%positive, ($3 * $3));
  (5%positive, ($4 * $4));
  (7%positive, (Sqrt $3))], ((((((($1 * $7) * $5) * $4) * ((#147616399519802070423809304821760000000 * $2) - #4473224227872790012842706206720000000)) * X) / #6514604955508248139592435421413376000000) - (((((((#99 / #32768) * $1) * $7) * $5) * $4) * $3) * X))).
(** source/ass_leg_function.cc 9820-9833 *)
Definition P_17_16 : prog := ([(1%positive, (Sqrt #2203961430));
  (2%positive, (X * X));
  (4%positive, (Pow2 (#1 - $2)));
  (5%positive, ($4 * $4));
  (6%positive, ($5 * $5))], ((((#3 / #65536) * $1) * $6) * X)).
(** source/ass_leg_function.cc 9838-9854 *)
Definition P_17_16_Deriv : prog := ([(1%positive, (Sqrt #2203961430));
  (2%positive, (X * X));
  (3%positive, (#1 - $2));
  (4%positive, ($3 * $3));
  (6%positive, ($4 * $4));
  (11%positive, ($6 * $6))], ((((((((Neg #3) / #4096) * $1) * $6) * $4) * $3) * $2) + (((#3 / #65536) * $1) * $11))).
(** source/ass_leg_function.cc 9859-9876 *)
Definition P_17_17 : prog := ([(1%positive, (Sqrt #64822395));
  (2%positive, (X * X));
  (3%positive, (#1 - $2));
  (4%positive, ($3 * $3));
  (5%positive, ($4 * $4));
  (6%positive, ($5 * $5));
  (7%positive, (Sqrt $3))], (((((Neg #3) / #65536) * $1) * $7) * $6)).
(** source/ass_leg_function.cc 9881-9896 *)
Definition P_17_17_Deriv : prog := ([(1%positive, (Sqrt #64822395));
  (2%positive, (X * X));
  (3%positive, (#1 - $2));
  (4%positive, ($3 * $3));
  (6%positive, ($4 * $4));
  (8%positive, (Sqrt $3))], (((((((#51 / #65536) * $1) * $8) * $6) * $4) * $3) * X)).
(** source/ass_leg_function.cc 9899-9928 *)
Definition P_18_0 : prog := ([(1%positive, (X * X));
  (2%positive, ($1 * $1));
  (3%positive, ($2 * $2));
  (4%positive, ($3 * $3));
  (6%positive, ($1 - #1));
  (9%positive, ($6 * $6));
  (10%positive, ($2 * $1));
  (14%positive, ($6 * $9));
  (18%positive, ($9 * $9));
  (31%positive, ($18 * $18))], (((((((((($4 * $1) + (((#153 / #2) * $6) * $4)) + ((((#2295 / #2) * $9) * $3) * $10)) + ((((#23205 / #4) * $14) * $3) * $2)) + ((((#765765 / #64) * $18) * $3) * $1)) + ((((#1378377 / #128) * $18) * $6) * $3)) + ((((#1072071 / #256) * $18) * $9) * $10)) + ((((#328185 / #512) * $18) * $14) * $2)) + (((#984555 / #32768) * $31) * $1)) + (((#12155 / #65536) * $31) * $6))).
(** source/ass_leg_function.cc 9931-9965 *)
Definition P_18_0_Deriv : prog := ([(1%positive, (X * X));
  (2%positive, ($1 * $1));
  (3%positive, ($2 * $2));
  (4%positive, ($3 * $3));
  (7%positive, ($1 - #1));
  (8%positive, ($1 * X));
  (9%positive, ($2 * $8));
  (13%positive, ($7 * $7));
  (14%positive, ($2 * X));
  (18%positive, ($13 * $7));
  (22%positive, ($13 * $13));
  (35%positive, ($22 * $22))], ((((((((((#171 * $4) * X) + (((#5814 * $7) * $3) * $9)) + ((((#101745 / #2) * $13) * $3) * $14)) + ((((#1322685 / #8) * $18) * $3) * $8)) + ((((#14549535 / #64) * $22) * $3) * X)) + ((((#8729721 / #64) * $22) * $7) * $9)) + ((((#8729721 / #256) * $22) * $13) * $14)) + ((((#6235515 / #2048) * $22) * $18) * $8)) + (((#2078505 / #32768) * $35) * X))).
(** source/ass_leg_function.cc 9970-10013 *)
Definition P_18_1 : prog := ([(1%positive, (Sqrt #38));
  (2%positive, (X * X));
  (3%positive, (#1 - $2));
  (4%positive, (Sqrt $3));
  (6%positive, ($2 * $2));
  (7%positive, ($6 * $6));
  (8%positive, ($7 * $7));
  (11%positive, (Neg $3));
  (12%positive, ($2 * X));
  (13%positive, ($6 * $12));
  (17%positive, ($11 * $11));
  (18%positive, ($6 * X));
  (22%positive, ($17 * $11));
  (26%positive, ($17 * $17));
  (39%positive, ($26 * $26))], ((((Neg $1) * $4) * ((((((((((#286996798814155702272000 * $8) * X) + (((#9757891159681293877248000 * $11) * $7) * $13)) + (((#85381547647211321425920000 * $17) * $7) * $18)) + (((#277490029853436794634240000 * $22) * $7) * $12)) + (((#381548791048475592622080000 * $26) * $7) * X)) + (((#228929274629085355573248000 * $26) * $11) * $13)) + (((#57232318657271338893312000 * $26) * $17) * $18)) + (((#5110028451542083829760000 * $26) * $22) * $12)) + ((#106458926073793413120000 * $39) * X))) / #191331199209437134848000)).
(** source/ass_leg_function.cc 10018-10080 *)
Definition P_18_1_Deriv : prog := ([(1%positive, (Sqrt #38));
  (2%positive, (X * X));
  (3%positive, (#1 - $2));
  (4%positive, (Sqrt $3));
  (7%positive, ($2 * $2));
  (8%positive, ($7 * $7));
  (9%positive, ($8 * $8));
  (12%positive, (Neg $3));
  (13%positive, ($2 * X));
  (14%positive, ($7 * $13));
  (18%positive, ($12 * $12));
  (19%positive, ($7 * X));
  (23%positive, ($18 * $12));
  (27%positive, ($18 * $18));
  (31%positive, ($27 * $12));
  (34%positive, ($27 * $18));
  (37%positive, ($27 * $23));
  (40%positive, ($27 * $27));
  (48%positive, ($7 * $2))], ((((($1 / $4) * ((((((((((#286996798814155702272000 * $9) * X) + (((#9757891159681293877248000 * $12) * $8) * $14)) + (((#85381547647211321425920000 * $18) * $8) * $19)) + (((#277490029853436794634240000 * $23) * $8) * $13)) + (((#381548791048475592622080000 * $27) * $8) * X)) + ((#228929274629085355573248000 * $31) * $14)) + ((#57232318657271338893312000 * $34) * $19)) + ((#5110028451542083829760000 * $13) * $37)) + ((#106458926073793413120000 * $40) * X))) * X) / #191331199209437134848000) - ((($1 * $4) * (((((((((#24394727899203234693120000 * $9) + (((#487894557984064693862400000 * $12) * $8) * $48)) + (((#2774900298534367946342400000 * $18) * $8) * $7)) + (((#6104780656775609481953280000 * $23) * $8) * $2)) + ((#5723231865727133889331200000 * $27) * $8)) + ((#2289292746290853555732480000 * $31) * $48)) + ((#357701991607945868083200000 * $34) * $7)) + ((#17033428171806946099200000 * $37) * $2)) + (#106458926073793413120000 * $40))) / #191331199209437134848000))).
(** source/ass_leg_function.cc 10085-10122 *)
Definition P_18_2 : prog := ([(1%positive, (Sqrt #3230));
  (2%positive, (X * X));
  (3%positive, (#1 - $2));
  (5%positive, ($2 * $2));
  (6%positive, ($5 * $5));
  (7%positive, ($6 * $6));
  (9%positive, (Neg $3));
  (10%positive, ($5 * $2));
  (14%positive, ($9 * $9));
  (18%positive, ($14 * $9));
  (22%positive, ($14 * $14));
  (34%positive, ($22 * $22))], ((($1 * $3) * (((((((((#24394727899203234693120000 * $7) + (((#487894557984064693862400000 * $9) * $6) * $10)) + (((#2774900298534367946342400000 * $14) * $6) * $5)) + (((#6104780656775609481953280000 * $18) * $6) * $2)) + ((#5723231865727133889331200000 * $22) * $6)) + (((#2289292746290853555732480000 * $22) * $9) * $10)) + (((#357701991607945868083200000 * $22) * $14) * $5)) + (((#17033428171806946099200000 * $22) * $18) * $2)) + (#106458926073793413120000 * $34))) / #32526303865604312924160000)).
(** source/ass_leg_function.cc 10127-10184 *)
Definition P_18_2_Deriv : prog := ([(1%positive, (Sqrt #3230));
  (3%positive, (X * X));
  (4%positive, ($3 * $3));
  (5%positive, ($4 * $4));
  (6%positive, ($5 * $5));
  (8%positive, ($3 - #1));
  (9%positive, ($4 * $3));
  (13%positive, ($8 * $8));
  (17%positive, ($13 * $8));
  (21%positive, ($13 * $13));
  (24%positive, ($21 * $8));
  (27%positive, ($21 * $13));
  (30%positive, ($21 * $17));
  (33%positive, ($21 * $21));
  (40%positive, ($3 * X));
  (41%positive, ($4 * $40));
  (44%positive, ($4 * X))], (((((Neg $1) * X) * (((((((((#24394727899203234693120000 * $6) + (((#487894557984064693862400000 * $8) * $5) * $9)) + (((#2774900298534367946342400000 * $13) * $5) * $4)) + (((#6104780656775609481953280000 * $17) * $5) * $3)) + ((#5723231865727133889331200000 * $21) * $5)) + ((#2289292746290853555732480000 * $24) * $9)) + ((#357701991607945868083200000 * $27) * $4)) + ((#17033428171806946099200000 * $30) * $3)) + (#106458926073793413120000 * $33))) / #16263151932802156462080000) - ((($1 * $8) * (((((((((#1366104762355381142814720000 * $5) * $41) + (((#17930125005914377499443200000 * $8) * $5) * $44)) + (((#69927487523066072247828480000 * $13) * $5) * $40)) + (((#106833661493573165934182400000 * $17) * $5) * X)) + ((#68678782388725606671974400000 * $21) * $41)) + ((#18028180377040471751393280000 * $24) * $44)) + ((#1669275960837080717721600000 * $27) * $40)) + ((#35770199160794586808320000 * $30) * X))) / #32526303865604312924160000))).
(** source/ass_leg_function.cc 10189-10227 *)
Definition P_18_3 : prog := ([(1%positive, (Sqrt #67830));
  (2%positive, (X * X));
  (3%positive, (#1 - $2));
  (4%positive, (Sqrt $3));
  (7%positive, ($2 * X));
  (8%positive, ($2 * $2));
  (9%positive, ($8 * $7));
  (10%positive, ($8 * $8));
  (13%positive, (Neg $3));
  (14%positive, ($8 * X));
  (18%positive, ($13 * $13));
  (22%positive, ($18 * $13));
  (26%positive, ($18 * $18))], (((((Neg $1) * $4) * $3) * (((((((((#1366104762355381142814720000 * $10) * $9) + (((#17930125005914377499443200000 * $13) * $10) * $14)) + (((#69927487523066072247828480000 * $18) * $10) * $7)) + (((#106833661493573165934182400000 * $22) * $10) * X)) + ((#68678782388725606671974400000 * $26) * $9)) + (((#18028180377040471751393280000 * $26) * $13) * $14)) + (((#1669275960837080717721600000 * $26) * $18) * $7)) + (((#35770199160794586808320000 * $26) * $22) * X))) / #2732209524710762285629440000)).
(** source/ass_leg_function.cc 10232-10288 *)
Definition P_18_3_Deriv : prog := ([(1%positive, (Sqrt #67830));
  (2%positive, (X * X));
  (3%positive, (#1 - $2));
  (4%positive, (Sqrt $3));
  (6%positive, ($2 * X));
  (7%positive, ($2 * $2));
  (8%positive, ($7 * $6));
  (9%positive, ($7 * $7));
  (12%positive, (Neg $3));
  (13%positive, ($7 * X));
  (17%positive, ($12 * $12));
  (21%positive, ($17 * $12));
  (25%positive, ($17 * $17));
  (28%positive, ($25 * $12));
  (31%positive, ($25 * $17));
  (34%positive, ($21 * $25));
  (43%positive, ($7 * $2))], ((((($1 * $4) * (((((((((#1366104762355381142814720000 * $9) * $8) + (((#17930125005914377499443200000 * $12) * $9) * $13)) + (((#69927487523066072247828480000 * $17) * $9) * $6)) + (((#106833661493573165934182400000 * $21) * $9) * X)) + ((#68678782388725606671974400000 * $25) * $8)) + ((#18028180377040471751393280000 * $28) * $13)) + ((#1669275960837080717721600000 * $31) * $6)) + ((#35770199160794586808320000 * $34) * X))) * X) / #910736508236920761876480000) - (((($1 * $4) * $3) * (((((((((#56351821447159472141107200000 * $9) * $43) + (((#512801575169151196484075520000 * $12) * $9) * $7)) + (((#1410204331715165790331207680000 * $17) * $9) * $2)) + ((#1510933212551963346783436800000 * $21) * $9)) + ((#661033280491483964217753600000 * $25) * $43)) + ((#110172213415247327369625600000 * $28) * $7)) + ((#5508610670762366368481280000 * $31) * $2)) + (#35770199160794586808320000 * $34))) / #2732209524710762285629440000))).
(** source/ass_leg_function.cc 10293-10327 *)
Definition P_18_4 : prog := ([(1%positive, (Sqrt #24871));
  (2%positive, (X * X));
  (3%positive, (#1 - $2));
  (4%positive, ($3 * $3));
  (6%positive, ($2 * $2));
  (7%positive, ($6 * $2));
  (8%positive, ($6 * $6));
  (11%positive, (Neg $3));
  (15%positive, ($11 * $11));
  (19%positive, ($15 * $11));
  (22%positive, ($15 * $15))], ((($1 * $4) * (((((((((#56351821447159472141107200000 * $8) * $7) + (((#512801575169151196484075520000 * $11) * $8) * $6)) + (((#1410204331715165790331207680000 * $15) * $8) * $2)) + ((#1510933212551963346783436800000 * $19) * $8)) + ((#661033280491483964217753600000 * $22) * $7)) + (((#110172213415247327369625600000 * $22) * $11) * $6)) + (((#5508610670762366368481280000 * $22) * $15) * $2)) + ((#35770199160794586808320000 * $22) * $19))) / #30054304771818385141923840000)).
(** source/ass_leg_function.cc 10332-10383 *)
Definition P_18_4_Deriv : prog := ([(1%positive, (Sqrt #24871));
  (2%positive, (X * X));
  (3%positive, (#1 - $2));
  (5%positive, ($2 * $2));
  (6%positive, ($5 * $2));
  (7%positive, ($5 * $5));
  (10%positive, (Neg $3));
  (14%positive, ($10 * $10));
  (18%positive, ($14 * $10));
  (21%positive, ($14 * $14));
  (24%positive, ($21 * $10));
  (27%positive, ($21 * $14));
  (36%positive, ($3 * $3));
  (38%positive, ($5 * X));
  (41%positive, ($2 * X))], ((((((Neg $1) * $3) * (((((((((#56351821447159472141107200000 * $7) * $6) + (((#512801575169151196484075520000 * $10) * $7) * $5)) + (((#1410204331715165790331207680000 * $14) * $7) * $2)) + ((#1510933212551963346783436800000 * $18) * $7)) + ((#661033280491483964217753600000 * $21) * $6)) + ((#110172213415247327369625600000 * $24) * $5)) + ((#5508610670762366368481280000 * $27) * $2)) + ((#35770199160794586808320000 * $21) * $18))) * X) / #7513576192954596285480960000) + ((($1 * $36) * ((((((((#1814528650598535002943651840000 * $7) * $38) + (((#11794436228890477519133736960000 * $10) * $7) * $41)) + (((#23167642592463437984012697600000 * $14) * $7) * X)) + (((#17375731944347578488009523200000 * $18) * $5) * $41)) + ((#5067921817101377059002777600000 * $21) * $38)) + ((#506792181710137705900277760000 * $24) * $41)) + ((#11518004129775856952279040000 * $27) * X))) / #30054304771818385141923840000))).
(** source/ass_leg_function.cc 10388-10423 *)
Definition P_18_5 : prog := ([(1%positive, (Sqrt #163438));
  (2%positive, (X * X));
  (3%positive, (#1 - $2));
  (4%positive, ($3 * $3));
  (5%positive, (Sqrt $3));
  (8%positive, ($2 * $2));
  (9%positive, ($8 * X));
  (10%positive, ($8 * $8));
  (13%positive, (Neg $3));
  (14%positive, ($2 * X));
  (18%positive, ($13 * $13));
  (26%positive, ($18 * $18))], (((((Neg $1) * $5) * $4) * ((((((((#1814528650598535002943651840000 * $10) * $9) + (((#11794436228890477519133736960000 * $13) * $10) * $14)) + (((#23167642592463437984012697600000 * $18) * $10) * X)) + ((((#17375731944347578488009523200000 * $18) * $13) * $8) * $14)) + ((#5067921817101377059002777600000 * $26) * $9)) + (((#506792181710137705900277760000 * $26) * $13) * $14)) + (((#11518004129775856952279040000 * $26) * $18) * X))) / #1382498019503645716528496640000)).
(** source/ass_leg_function.cc 10428-10478 *)
Definition P_18_5_Deriv : prog := ([(1%positive, (Sqrt #163438));
  (2%positive, (X * X));
  (3%positive, (#1 - $2));
  (4%positive, (Sqrt $3));
  (7%positive, ($2 * $2));
  (8%positive, ($7 * X));
  (9%positive, ($7 * $7));
  (12%positive, (Neg $3));
  (13%positive, ($2 * X));
  (17%positive, ($12 * $12));
  (21%positive, ($17 * $12));
  (25%positive, ($17 * $17));
  (28%positive, ($25 * $12));
  (31%positive, ($25 * $17));
  (38%positive, ($3 * $3))], (((((($1 * $4) * $3) * ((((((((#1814528650598535002943651840000 * $9) * $8) + (((#11794436228890477519133736960000 * $12) * $9) * $13)) + (((#23167642592463437984012697600000 * $17) * $9) * X)) + (((#17375731944347578488009523200000 * $21) * $7) * $13)) + ((#5067921817101377059002777600000 * $25) * $8)) + ((#506792181710137705900277760000 * $28) * $13)) + ((#11518004129775856952279040000 * $31) * X))) * X) / #276499603900729143305699328000) - (((($1 * $4) * $38) * ((((((((#47177744915561910076534947840000 * $9) * $7) + (((#222409368887649004646521896960000 * $12) * $9) * $2)) + ((#312763174998256412784171417600000 * $17) * $9)) + (((#162173498147244065888088883200000 * $21) * $7) * $2)) + ((#30407530902608262354016665600000 * $25) * $7)) + ((#1658592594687723401128181760000 * $28) * $2)) + (#11518004129775856952279040000 * $31))) / #1382498019503645716528496640000))).
(** source/ass_leg_function.cc 10483-10512 *)
Definition P_18_6 : prog := ([(1%positive, (Sqrt #3187041));
  (2%positive, (X * X));
  (3%positive, (#1 - $2));
  (4%positive, ($3 * $3));
  (7%positive, ($2 * $2));
  (8%positive, ($7 * $7));
  (11%positive, (Neg $3));
  (15%positive, ($11 * $11));
  (22%positive, ($15 * $15))], (((($1 * $4) * $3) * ((((((((#47177744915561910076534947840000 * $8) * $7) + (((#222409368887649004646521896960000 * $11) * $8) * $2)) + ((#312763174998256412784171417600000 * $15) * $8)) + ((((#162173498147244065888088883200000 * $15) * $11) * $7) * $2)) + ((#30407530902608262354016665600000 * $22) * $7)) + (((#1658592594687723401128181760000 * $22) * $11) * $2)) + ((#11518004129775856952279040000 * $22) * $15))) / #107834845521284365889222737920000)).
(** source/ass_leg_function.cc 10517-10560 *)
Definition P_18_6_Deriv : prog := ([(1%positive, (Sqrt #3187041));
  (2%positive, (X * X));
  (3%positive, (#1 - $2));
  (4%positive, ($3 * $3));
  (6%positive, ($2 * $2));
  (7%positive, ($6 * $6));
  (10%positive, (Neg $3));
  (14%positive, ($10 * $10));
  (17%positive, ($14 * $10));
  (21%positive, ($14 * $14));
  (24%positive, ($21 * $10));
  (35%positive, ($2 * X))], ((((((Neg $1) * $4) * ((((((((#47177744915561910076534947840000 * $7) * $6) + (((#222409368887649004646521896960000 * $10) * $7) * $2)) + ((#312763174998256412784171417600000 * $14) * $7)) + (((#162173498147244065888088883200000 * $17) * $6) * $2)) + ((#30407530902608262354016665600000 * $21) * $6)) + ((#1658592594687723401128181760000 * $24) * $2)) + ((#11518004129775856952279040000 * $21) * $14))) * X) / #17972474253547394314870456320000) + (((($1 * $4) * $3) * (((((((#1010951676762040930211463168000000 * $7) * $35) + (((#3475146388869515697601904640000000 * $10) * $7) * X)) + (((#3475146388869515697601904640000000 * $14) * $6) * $35)) + (((#1216301236104330494160666624000000 * $17) * $6) * X)) + ((#138216049557310283427348480000000 * $21) * $35)) + ((#3455401238932757085683712000000 * $24) * X))) / #107834845521284365889222737920000))).
(** source/ass_leg_function.cc 10565-10597 *)
Definition P_18_7 : prog := ([(1%positive, (Sqrt #1062347));
  (2%positive, (X * X));
  (3%positive, (#1 - $2));
  (4%positive, ($3 * $3));
  (6%positive, (Sqrt $3));
  (9%positive, ($2 * X));
  (10%positive, ($2 * $2));
  (11%positive, ($10 * $10));
  (14%positive, (Neg $3));
  (18%positive, ($14 * $14));
  (26%positive, ($18 * $18))], ((((((Neg $1) * $6) * $4) * $3) * (((((((#1010951676762040930211463168000000 * $11) * $9) + (((#3475146388869515697601904640000000 * $14) * $11) * X)) + (((#3475146388869515697601904640000000 * $18) * $10) * $9)) + ((((#1216301236104330494160666624000000 * $18) * $14) * $10) * X)) + ((#138216049557310283427348480000000 * $26) * $9)) + (((#3455401238932757085683712000000 * $26) * $14) * X))) / #1078348455212843658892227379200000)).
(** source/ass_leg_function.cc 10602-10646 *)
Definition P_18_7_Deriv : prog := ([(1%positive, (Sqrt #1062347));
  (2%positive, (X * X));
  (3%positive, (#1 - $2));
  (4%positive, ($3 * $3));
  (5%positive, (Sqrt $3));
  (8%positive, ($2 * X));
  (9%positive, ($2 * $2));
  (10%positive, ($9 * $9));
  (13%positive, (Neg $3));
  (17%positive, ($13 * $13));
  (21%positive, ($17 * $13));
  (25%positive, ($17 * $17));
  (28%positive, ($25 * $13))], (((((($1 * $5) * $4) * (((((((#1010951676762040930211463168000000 * $10) * $8) + (((#3475146388869515697601904640000000 * $13) * $10) * X)) + (((#3475146388869515697601904640000000 * $17) * $9) * $8)) + (((#1216301236104330494160666624000000 * $21) * $9) * X)) + ((#138216049557310283427348480000000 * $25) * $8)) + ((#3455401238932757085683712000000 * $28) * X))) * X) / #154049779316120522698889625600000) - ((((($1 * $5) * $4) * $3) * (((((((#18070761222121481627529904128000000 * $10) * $2) + ((#45176903055303704068824760320000000 * $13) * $10)) + (((#31623832138712592848177332224000000 * $17) * $9) * $2)) + ((#7187234576980134738222120960000000 * $21) * $9)) + ((#449202161061258421138882560000000 * $25) * $2)) + (#3455401238932757085683712000000 * $28))) / #1078348455212843658892227379200000))).
(** source/ass_leg_function.cc 10651-10681 *)
Definition P_18_8 : prog := ([(1%positive, (Sqrt #14858));
  (2%positive, (X * X));
  (3%positive, (#1 - $2));
  (4%positive, ($3 * $3));
  (5%positive, ($4 * $4));
  (7%positive, ($2 * $2));
  (8%positive, ($7 * $7));
  (11%positive, (Neg $3));
  (14%positive, ($11 * $11));
  (21%positive, ($14 * $14))], ((($1 * $5) * (((((((#18070761222121481627529904128000000 * $8) * $2) + ((#45176903055303704068824760320000000 * $11) * $8)) + (((#31623832138712592848177332224000000 * $14) * $7) * $2)) + (((#7187234576980134738222120960000000 * $14) * $11) * $7)) + ((#449202161061258421138882560000000 * $21) * $2)) + ((#3455401238932757085683712000000 * $21) * $11))) / #2156696910425687317784454758400000)).
(** source/ass_leg_function.cc 10686-10727 *)
Definition P_18_8_Deriv : prog := ([(1%positive, (Sqrt #14858));
  (2%positive, (X * X));
  (3%positive, (#1 - $2));
  (4%positive, ($3 * $3));
  (7%positive, ($2 * $2));
  (8%positive, ($7 * $7));
  (11%positive, (Neg $3));
  (14%positive, ($11 * $11));
  (18%positive, ($14 * $11));
  (21%positive, ($14 * $14));
  (30%positive, ($4 * $4));
  (34%positive, ($2 * X))], (((((((Neg $1) * $4) * $3) * (((((((#18070761222121481627529904128000000 * $8) * $2) + ((#45176903055303704068824760320000000 * $11) * $8)) + (((#31623832138712592848177332224000000 * $14) * $7) * $2)) + ((#7187234576980134738222120960000000 * $7) * $18)) + ((#449202161061258421138882560000000 * $21) * $2)) + ((#3455401238932757085683712000000 * $11) * $21))) * X) / #269587113803210914723056844800000) + ((($1 * $30) * ((((((#271061418331822224412948561920000000 * $8) * X) + (((#487910552997280003943307411456000000 * $11) * $7) * $34)) + (((#232866400294156365518396719104000000 * $14) * $7) * X)) + ((#32342555596410606321999544320000000 * $18) * $34)) + ((#932958334511844413134602240000000 * $21) * X))) / #2156696910425687317784454758400000))).
(** source/ass_leg_function.cc 10732-10765 *)
Definition P_18_9 : prog := ([(1%positive, (Sqrt #111435));
  (2%positive, (X * X));
  (3%positive, (#1 - $2));
  (4%positive, ($3 * $3));
  (5%positive, ($4 * $4));
  (6%positive, (Sqrt $3));
  (9%positive, ($2 * $2));
  (10%positive, ($9 * $9));
  (13%positive, (Neg $3));
  (14%positive, ($2 * X));
  (18%positive, ($13 * $13));
  (25%positive, ($18 * $18))], (((((Neg $1) * $6) * $5) * ((((((#271061418331822224412948561920000000 * $10) * X) + (((#487910552997280003943307411456000000 * $13) * $9) * $14)) + (((#232866400294156365518396719104000000 * $18) * $9) * X)) + (((#32342555596410606321999544320000000 * $18) * $13) * $14)) + ((#932958334511844413134602240000000 * $25) * X))) / #97051360969155929300300464128000000)).
(** source/ass_leg_function.cc 10770-10812 *)
Definition P_18_9_Deriv : prog := ([(1%positive, (Sqrt #111435));
  (2%positive, (X * X));
  (3%positive, (#1 - $2));
  (4%positive, ($3 * $3));
  (6%positive, (Sqrt $3));
  (9%positive, ($2 * $2));
  (10%positive, ($9 * $9));
  (13%positive, (Neg $3));
  (14%positive, ($2 * X));
  (18%positive, ($13 * $13));
  (22%positive, ($18 * $13));
  (25%positive, ($18 * $18));
  (32%positive, ($4 * $4))], ((((((($1 * $6) * $4) * $3) * ((((((#271061418331822224412948561920000000 * $10) * X) + (((#487910552997280003943307411456000000 * $13) * $9) * $14)) + (((#232866400294156365518396719104000000 * $18) * $9) * X)) + ((#32342555596410606321999544320000000 * $22) * $14)) + ((#932958334511844413134602240000000 * $25) * X))) * X) / #10783484552128436588922273792000000) - (((($1 * $6) * $32) * (((((#3415373870980960027603151880192000000 * $10) + (((#4346839472157585489676738756608000000 * $13) * $9) * $2)) + ((#1358387335049245465523980861440000000 * $18) * $9)) + ((#104491333465326574271075450880000000 * $22) * $2)) + (#932958334511844413134602240000000 * $25))) / #97051360969155929300300464128000000))).
(** source/ass_leg_function.cc 10817-10846 *)
Definition P_18_10 : prog := ([(1%positive, (Sqrt #780045));
  (2%positive, (X * X));
  (3%positive, (#1 - $2));
  (4%positive, ($3 * $3));
  (5%positive, ($4 * $4));
  (8%positive, ($2 * $2));
  (9%positive, ($8 * $8));
  (11%positive, (Neg $3));
  (15%positive, ($11 * $11));
  (21%positive, ($15 * $15))], (((($1 * $5) * $3) * (((((#3415373870980960027603151880192000000 * $9) + (((#4346839472157585489676738756608000000 * $11) * $8) * $2)) + ((#1358387335049245465523980861440000000 * $15) * $8)) + (((#104491333465326574271075450880000000 * $15) * $11) * $2)) + (#932958334511844413134602240000000 * $21))) / #4076157160704549030612619493376000000)).
(** source/ass_leg_function.cc 10851-10890 *)
Definition P_18_10_Deriv : prog := ([(1%positive, (Sqrt #780045));
  (2%positive, (X * X));
  (3%positive, (#1 - $2));
  (4%positive, ($3 * $3));
  (5%positive, ($4 * $4));
  (7%positive, ($2 * $2));
  (8%positive, ($7 * $7));
  (10%positive, (Neg $3));
  (14%positive, ($10 * $10));
  (17%positive, ($14 * $10));
  (20%positive, ($14 * $14));
  (28%positive, ($2 * X))], ((((((Neg $1) * $5) * (((((#3415373870980960027603151880192000000 * $8) + (((#4346839472157585489676738756608000000 * $10) * $7) * $2)) + ((#1358387335049245465523980861440000000 * $14) * $7)) + ((#104491333465326574271075450880000000 * $17) * $2)) + (#932958334511844413134602240000000 * $20))) * X) / #407615716070454903061261949337600000) + (((($1 * $5) * $3) * (((((#36016669912162851200178692554752000000 * $7) * $28) + (((#31514586173142494800156355985408000000 * $10) * $7) * X)) + ((#6060497340988941307722376151040000000 * $14) * $28)) + ((#216446333606747903847227719680000000 * $17) * X))) / #4076157160704549030612619493376000000))).
(** source/ass_leg_function.cc 10895-10923 *)
Definition P_18_11 : prog := ([(1%positive, (Sqrt #45242610));
  (2%positive, (X * X));
  (3%positive, (#1 - $2));
  (4%positive, ($3 * $3));
  (5%positive, ($4 * $4));
  (7%positive, (Sqrt $3));
  (10%positive, ($2 * X));
  (11%positive, ($2 * $2));
  (14%positive, (Neg $3));
  (18%positive, ($14 * $14))], ((((((Neg $1) * $7) * $5) * $3) * (((((#36016669912162851200178692554752000000 * $11) * $10) + (((#31514586173142494800156355985408000000 * $14) * $11) * X)) + ((#6060497340988941307722376151040000000 * $18) * $10)) + (((#216446333606747903847227719680000000 * $18) * $14) * X))) / #472834230641727687551063861231616000000)).
(** source/ass_leg_function.cc 10928-10964 *)
Definition P_18_11_Deriv : prog := ([(1%positive, (Sqrt #45242610));
  (2%positive, (X * X));
  (3%positive, (#1 - $2));
  (4%positive, ($3 * $3));
  (5%positive, ($4 * $4));
  (6%positive, (Sqrt $3));
  (9%positive, ($2 * X));
  (10%positive, ($2 * $2));
  (13%positive, (Neg $3));
  (17%positive, ($13 * $13));
  (20%positive, ($17 * $13))], (((((($1 * $6) * $5) * (((((#36016669912162851200178692554752000000 * $10) * $9) + (((#31514586173142494800156355985408000000 * $13) * $10) * X)) + ((#6060497340988941307722376151040000000 * $17) * $9)) + ((#216446333606747903847227719680000000 * $20) * X))) * X) / #42984930058338880686460351021056000000) - ((((($1 * $6) * $5) * $3) * (((((#315145861731424948001563559854080000000 * $10) * $2) + ((#181814920229668239231671284531200000000 * $13) * $10)) + ((#19480170024607311346250494771200000000 * $17) * $2)) + (#216446333606747903847227719680000000 * $20))) / #472834230641727687551063861231616000000))).
(** source/ass_leg_function.cc 10969-10993 *)
Definition P_18_12 : prog := ([(1%positive, (Sqrt #215441));
  (2%positive, (X * X));
  (3%positive, (#1 - $2));
  (4%positive, ($3 * $3));
  (5%positive, ($4 * $4));
  (8%positive, ($2 * $2));
  (11%positive, (Neg $3));
  (14%positive, ($11 * $11))], (((($1 * $5) * $4) * (((((#315145861731424948001563559854080000000 * $8) * $2) + ((#181814920229668239231671284531200000000 * $11) * $8)) + ((#19480170024607311346250494771200000000 * $14) * $2)) + ((#216446333606747903847227719680000000 * $14) * $11))) / #472834230641727687551063861231616000000)).
(** source/ass_leg_function.cc 10998-11027 *)
Definition P_18_12_Deriv : prog := ([(1%positive, (Sqrt #215441));
  (2%positive, (X * X));
  (3%positive, (#1 - $2));
  (4%positive, ($3 * $3));
  (5%positive, ($4 * $4));
  (8%positive, ($2 * $2));
  (11%positive, (Neg $3));
  (14%positive, ($11 * $11))], (((((((Neg $1) * $5) * $3) * (((((#315145861731424948001563559854080000000 * $8) * $2) + ((#181814920229668239231671284531200000000 * $11) * $8)) + ((#19480170024607311346250494771200000000 * $14) * $2)) + ((#216446333606747903847227719680000000 * $14) * $11))) * X) / #39402852553477307295921988435968000000) + (((($1 * $5) * $4) * ((((#2254505010847886166472723928186880000000 * $8) * X) + (((#805180361017102202311687117209600000000 * $11) * $2) * X)) + ((#40259018050855110115584355860480000000 * $14) * X))) / #472834230641727687551063861231616000000))).
(** source/ass_leg_function.cc 11032-11057 *)
Definition P_18_13 : prog := ([(1%positive, (Sqrt #40072026));
  (2%positive, (X * X));
  (3%positive, (#1 - $2));
  (4%positive, ($3 * $3));
  (5%positive, ($4 * $4));
  (7%positive, (Sqrt $3));
  (10%positive, ($2 * $2));
  (13%positive, (Neg $3));
  (17%positive, ($13 * $13))], ((((((Neg $1) * $7) * $5) * $4) * ((((#2254505010847886166472723928186880000000 * $10) * X) + (((#805180361017102202311687117209600000000 * $13) * $2) * X)) + ((#40259018050855110115584355860480000000 * $17) * X))) / #87947166899361349884497878189080576000000)).
(** source/ass_leg_function.cc 11062-11092 *)
Definition P_18_13_Deriv : prog := ([(1%positive, (Sqrt #40072026));
  (2%positive, (X * X));
  (3%positive, (#1 - $2));
  (4%positive, ($3 * $3));
  (5%positive, ($4 * $4));
  (7%positive, (Sqrt $3));
  (10%positive, ($2 * $2));
  (13%positive, (Neg $3));
  (17%positive, ($13 * $13))], ((((((($1 * $7) * $5) * $3) * ((((#2254505010847886166472723928186880000000 * $10) * X) + (((#805180361017102202311687117209600000000 * $13) * $2) * X)) + ((#40259018050855110115584355860480000000 * $17) * X))) * X) / #6765166684566257683422913706852352000000) - ((((($1 * $7) * $5) * $4) * (((#12882885776273635236986993875353600000000 * $10) + ((#2576577155254727047397398775070720000000 * $13) * $2)) + (#40259018050855110115584355860480000000 * $17))) / #87947166899361349884497878189080576000000))).
(** source/ass_leg_function.cc 11097-11120 *)
Definition P_18_14 : prog := ([(1%positive, (Sqrt #100180065));
  (2%positive, (X * X));
  (3%positive, (#1 - $2));
  (4%positive, ($3 * $3));
  (6%positive, ($4 * $4));
  (9%positive, ($2 * $2));
  (11%positive, (Neg $3));
  (14%positive, ($11 * $11))], ((((($1 * $6) * $4) * $3) * (((#12882885776273635236986993875353600000000 * $9) + ((#2576577155254727047397398775070720000000 * $11) * $2)) + (#40259018050855110115584355860480000000 * $14))) / #1758943337987226997689957563781611520000000)).
(** source/ass_leg_function.cc 11125-11152 *)
Definition P_18_14_Deriv : prog := ([(1%positive, (Sqrt #100180065));
  (2%positive, (X * X));
  (3%positive, (#1 - $2));
  (4%positive, ($3 * $3));
  (5%positive, ($4 * $4));
  (8%positive, ($2 * $2));
  (10%positive, (Neg $3));
  (13%positive, ($10 * $10))], (((((((Neg $1) * $5) * $4) * (((#12882885776273635236986993875353600000000 * $8) + ((#2576577155254727047397398775070720000000 * $10) * $2)) + (#40259018050855110115584355860480000000 * $13))) * X) / #125638809856230499834996968841543680000000) + ((((($1 * $5) * $4) * $3) * (((#56684697415603995042742773051555840000000 * $2) * X) + ((#5314190382712874535257134973583360000000 * $10) * X))) / #1758943337987226997689957563781611520000000))).
(** source/ass_leg_function.cc 11157-11175 *)
Definition P_18_15 : prog := ([(1%positive, (Sqrt #367326905));
  (2%positive, (X * X));
  (3%positive, (#1 - $2));
  (4%positive, ($3 * $3));
  (6%positive, ($4 * $4));
  (8%positive, (Sqrt $3))], (((((((Neg $1) * $8) * $6) * $4) * $3) * (((#56684697415603995042742773051555840000000 * $2) * X) - ((#5314190382712874535257134973583360000000 * $3) * X))) / #38696753435718993949179066403195453440000000)).
(** source/ass_leg_function.cc 11180-11202 *)
Definition P_18_15_Deriv : prog := ([(1%positive, (Sqrt #367326905));
  (2%positive, (X * X));
  (3%positive, (#1 - $2));
  (4%positive, ($3 * $3));
  (5%positive, ($4 * $4));
  (7%positive, (Sqrt $3))], ((((((($1 * $7) * $5) * $4) * (((#56684697415603995042742773051555840000000 * $2) * X) - ((#5314190382712874535257134973583360000000 * $3) * X))) * X) / #2579783562381266263278604426879696896000000) - (((((($1 * $7) * $5) * $4) * $3) * ((#185996663394950608733999724075417600000000 * $2) - #5314190382712874535257134973583360000000)) / #38696753435718993949179066403195453440000000))).
(** source/ass_leg_function.cc 11207-11223 *)
Definition P_18_16 : prog := ([(1%positive, (Sqrt #129644790));
  (2%positive, (X * X));
  (4%positive, (Pow2 (#1 - $2)));
  (5%positive, ($4 * $4));
  (6%positive, ($5 * $5))], ((($1 * $6) * ((#185996663394950608733999724075417600000000 * $2) - #5314190382712874535257134973583360000000)) / #232180520614313963695074398419172720640000000)).
(** source/ass_leg_function.cc 11228-11247 *)
Definition P_18_16_Deriv : prog := ([(1%positive, (Sqrt #129644790));
  (2%positive, (X * X));
  (3%positive, (#1 - $2));
  (4%positive, ($3 * $3));
  (6%positive, ($4 * $4));
  (14%positive, ($6 * $6))], ((((((((Neg $1) * $6) * $4) * $3) * ((#185996663394950608733999724075417600000000 * $2) - #5314190382712874535257134973583360000000)) * X) / #14511282538394622730942149901198295040000000) + ((((#105 / #65536) * $1) * $14) * X))).
(** source/ass_leg_function.cc 11252-11269 *)
Definition P_18_17 : prog := ([(1%positive, (Sqrt #90751353));
  (2%positive, (X * X));
  (3%positive, (#1 - $2));
  (4%positive, ($3 * $3));
  (5%positive, ($4 * $4));
  (6%positive, ($5 * $5));
  (7%positive, (Sqrt $3))], ((((((Neg #15) / #65536) * $1) * $7) * $6) * X)).
(** source/ass_leg_function.cc 11274-11292 *)
Definition P_18_17_Deriv : prog := ([(1%positive, (Sqrt #90751353));
  (2%positive, (X * X));
  (3%positive, (#1 - $2));
  (4%positive, ($3 * $3));
  (6%positive, ($4 * $4));
  (8%positive, (Sqrt $3));
  (13%positive, ($6 * $6))], ((((((((#255 / #65536) * $1) * $8) * $6) * $4) * $3) * $2) - ((((#15 / #65536) * $1) * $8) * $13))).
(** source/ass_leg_function.cc 11297-11312 *)
Definition P_18_18 : prog := ([(1%positive, (Sqrt #90751353));
  (2%positive, (X * X));
  (3%positive, (#1 - $2));
  (4%positive, ($3 * $3));
  (5%positive, ($4 * $4));
  (6%positive, ($5 * $5))], ((((#5 / #131072) * $1) * $6) * $3)).
(** source/ass_leg_function.cc 11317-11330 *)
Definition P_18_18_Deriv : prog := ([(1%positive, (Sqrt #90751353));
  (2%positive, (X * X));
  (4%positive, (Pow2 (#1 - $2)));
  (5%positive, ($4 * $4));
  (6%positive, ($5 * $5))], (((((Neg #45) / #65536) * $1) * $6) * X)).
(** source/ass_leg_function.cc 11333-11367 *)
Definition P_19_0 : prog := ([(1%positive, (X * X));
  (2%positive, ($1 * X));
  (3%positive, ($1 * $1));
  (4%positive, ($3 * $3));
  (5%positive, ($4 * $4));
  (7%positive, ($1 - #1));
  (11%positive, ($7 * $7));
  (12%positive, ($3 * $2));
  (16%positive, ($11 * $7));
  (17%positive, ($3 * X));
  (21%positive, ($11 * $11));
  (35%positive, ($21 * $21))], (((((((((($5 * $2) + ((((#171 / #2) * $7) * $5) * X)) + ((((#2907 / #2) * $11) * $4) * $12)) + ((((#33915 / #4) * $16) * $4) * $17)) + ((((#1322685 / #64) * $21) * $4) * $2)) + (((((#2909907 / #128) * $21) * $7) * $4) * X)) + ((((#2909907 / #256) * $21) * $11) * $12)) + ((((#1247103 / #512) * $21) * $16) * $17)) + (((#6235515 / #32768) * $35) * $2)) + ((((#230945 / #65536) * $35) * $7) * X))).
(** source/ass_leg_function.cc 11370-11400 *)
Definition P_19_0_Deriv : prog := ([(1%positive, (X * X));
  (2%positive, ($1 * $1));
  (3%positive, ($2 * $2));
  (4%positive, ($3 * $3));
  (7%positive, ($1 - #1));
  (10%positive, ($7 * $7));
  (11%positive, ($1 * $2));
  (15%positive, ($10 * $7));
  (19%positive, ($10 * $10));
  (32%positive, ($19 * $19))], (((((((((((#190 * $4) * $1) + (((#14535 / #2) * $7) * $4)) + (((#72675 * $10) * $3) * $11)) + ((((#2204475 / #8) * $15) * $3) * $2)) + ((((#14549535 / #32) * $19) * $3) * $1)) + ((((#43648605 / #128) * $19) * $7) * $3)) + ((((#14549535 / #128) * $19) * $10) * $11)) + ((((#31177575 / #2048) * $19) * $15) * $2)) + (((#10392525 / #16384) * $32) * $1)) + (((#230945 / #65536) * $32) * $7))).
(** source/ass_leg_function.cc 11405-11445 *)
Definition P_19_1 : prog := ([(1%positive, (Sqrt #95));
  (2%positive, (X * X));
  (3%positive, (#1 - $2));
  (4%positive, (Sqrt $3));
  (6%positive, ($2 * $2));
  (7%positive, ($6 * $6));
  (8%positive, ($7 * $7));
  (11%positive, (Neg $3));
  (14%positive, ($11 * $11));
  (15%positive, ($6 * $2));
  (19%positive, ($14 * $11));
  (23%positive, ($14 * $14));
  (36%positive, ($23 * $23))], ((((Neg $1) * $4) * (((((((((((#12117642616597685207040000 * $8) * $2) + ((#463499830084861459169280000 * $11) * $8)) + (((#4634998300848614591692800000 * $14) * $7) * $15)) + (((#17574368557384330326835200000 * $19) * $7) * $6)) + (((#28997708119684145039278080000 * $23) * $7) * $2)) + (((#21748281089763108779458560000 * $23) * $11) * $7)) + (((#7249427029921036259819520000 * $23) * $14) * $15)) + (((#970905405792995927654400000 * $23) * $19) * $6)) + ((#40454391908041496985600000 * $36) * $2)) + ((#224746621711341649920000 * $36) * $11))) / #12117642616597685207040000)).
(** source/ass_leg_function.cc 11450-11513 *)
Definition P_19_1_Deriv : prog := ([(1%positive, (Sqrt #95));
  (2%positive, (X * X));
  (3%positive, (#1 - $2));
  (4%positive, (Sqrt $3));
  (7%positive, ($2 * $2));
  (8%positive, ($7 * $7));
  (9%positive, ($8 * $8));
  (12%positive, (Neg $3));
  (15%positive, ($12 * $12));
  (16%positive, ($7 * $2));
  (20%positive, ($15 * $12));
  (24%positive, ($15 * $15));
  (28%positive, ($24 * $12));
  (31%positive, ($24 * $15));
  (34%positive, ($24 * $20));
  (37%positive, ($24 * $24));
  (48%positive, ($2 * X));
  (49%positive, ($7 * $48));
  (53%positive, ($7 * X))], ((((($1 / $4) * (((((((((((#12117642616597685207040000 * $2) * $9) + ((#463499830084861459169280000 * $12) * $9)) + (((#4634998300848614591692800000 * $15) * $8) * $16)) + (((#17574368557384330326835200000 * $20) * $8) * $7)) + (((#28997708119684145039278080000 * $24) * $8) * $2)) + ((#21748281089763108779458560000 * $28) * $8)) + ((#7249427029921036259819520000 * $31) * $16)) + ((#970905405792995927654400000 * $34) * $7)) + ((#40454391908041496985600000 * $37) * $2)) + ((#224746621711341649920000 * $37) * $12))) * X) / #12117642616597685207040000) - ((($1 * $4) * ((((((((((#1145117227268481252065280000 * $9) * X) + (((#25955990484752241713479680000 * $12) * $8) * $49)) + (((#170336187556186586244710400000 * $15) * $8) * $53)) + (((#442874087646085124236247040000 * $20) * $8) * $48)) + (((#507459892094472538187366400000 * $24) * $8) * X)) + ((#260979373077157305353502720000 * $28) * $49)) + ((#57089237860628160546078720000 * $31) * $53)) + ((#4530891893700647662387200000 * $48) * $34)) + ((#84954223006887143669760000 * $37) * X))) / #12117642616597685207040000))).
(** source/ass_leg_function.cc 11518-11559 *)
Definition P_19_2 : prog := ([(1%positive, (Sqrt #3990));
  (2%positive, (X * X));
  (3%positive, (#1 - $2));
  (5%positive, ($2 * $2));
  (6%positive, ($5 * $5));
  (7%positive, ($6 * $6));
  (10%positive, (Neg $3));
  (11%positive, ($2 * X));
  (12%positive, ($5 * $11));
  (16%positive, ($10 * $10));
  (17%positive, ($5 * X));
  (21%positive, ($16 * $10));
  (25%positive, ($16 * $16));
  (38%positive, ($25 * $25))], ((($1 * $3) * ((((((((((#1145117227268481252065280000 * $7) * X) + (((#25955990484752241713479680000 * $10) * $6) * $12)) + (((#170336187556186586244710400000 * $16) * $6) * $17)) + (((#442874087646085124236247040000 * $21) * $6) * $11)) + (((#507459892094472538187366400000 * $25) * $6) * X)) + (((#260979373077157305353502720000 * $25) * $10) * $12)) + (((#57089237860628160546078720000 * $25) * $16) * $17)) + (((#4530891893700647662387200000 * $25) * $21) * $11)) + ((#84954223006887143669760000 * $38) * X))) / #1526822969691308336087040000)).
(** source/ass_leg_function.cc 11564-11622 *)
Definition P_19_2_Deriv : prog := ([(1%positive, (Sqrt #3990));
  (3%positive, (X * X));
  (4%positive, ($3 * $3));
  (5%positive, ($4 * $4));
  (6%positive, ($5 * $5));
  (9%positive, ($3 - #1));
  (10%positive, ($3 * X));
  (11%positive, ($4 * $10));
  (15%positive, ($9 * $9));
  (16%positive, ($4 * X));
  (20%positive, ($15 * $9));
  (24%positive, ($15 * $15));
  (28%positive, ($24 * $9));
  (31%positive, ($24 * $15));
  (34%positive, ($24 * $20));
  (37%positive, ($24 * $24));
  (46%positive, ($4 * $3))], (((((Neg $1) * X) * ((((((((((#1145117227268481252065280000 * $6) * X) + (((#25955990484752241713479680000 * $9) * $5) * $11)) + (((#170336187556186586244710400000 * $15) * $5) * $16)) + (((#442874087646085124236247040000 * $20) * $5) * $10)) + (((#507459892094472538187366400000 * $24) * $5) * X)) + ((#260979373077157305353502720000 * $28) * $11)) + ((#57089237860628160546078720000 * $31) * $16)) + ((#4530891893700647662387200000 * $34) * $10)) + ((#84954223006887143669760000 * $37) * X))) / #763411484845654168043520000) - ((($1 * $9) * (((((((((#71378973833068664712069120000 * $6) + (((#1070684607496029970681036800000 * $9) * $5) * $46)) + (((#4871614964106936366598717440000 * $15) * $5) * $4)) + (((#8931294100862716672097648640000 * $20) * $5) * $3)) + ((#7176932759621825897221324800000 * $24) * $5)) + ((#2511926465867639064027463680000 * $28) * $46)) + ((#348878675814949870003814400000 * $31) * $4)) + ((#14951943249212137285877760000 * $34) * $3)) + (#84954223006887143669760000 * $37))) / #1526822969691308336087040000))).
(** source/ass_leg_function.cc 11627-11666 *)
Definition P_19_3 : prog := ([(1%positive, (Sqrt #373065));
  (2%positive, (X * X));
  (3%positive, (#1 - $2));
  (4%positive, (Sqrt $3));
  (7%positive, ($2 * $2));
  (8%positive, ($7 * $7));
  (9%positive, ($8 * $8));
  (11%positive, (Neg $3));
  (12%positive, ($7 * $2));
  (16%positive, ($11 * $11));
  (20%positive, ($16 * $11));
  (24%positive, ($16 * $16));
  (36%positive, ($24 * $24))], (((((Neg $1) * $4) * $3) * (((((((((#71378973833068664712069120000 * $9) + (((#1070684607496029970681036800000 * $11) * $8) * $12)) + (((#4871614964106936366598717440000 * $16) * $8) * $7)) + (((#8931294100862716672097648640000 * $20) * $8) * $2)) + ((#7176932759621825897221324800000 * $24) * $8)) + (((#2511926465867639064027463680000 * $24) * $11) * $12)) + (((#348878675814949870003814400000 * $24) * $16) * $7)) + (((#14951943249212137285877760000 * $24) * $20) * $2)) + (#84954223006887143669760000 * $36))) / #285515895332274658848276480000)).
(** source/ass_leg_function.cc 11671-11732 *)
Definition P_19_3_Deriv : prog := ([(1%positive, (Sqrt #373065));
  (2%positive, (X * X));
  (3%positive, (#1 - $2));
  (4%positive, (Sqrt $3));
  (6%positive, ($2 * $2));
  (7%positive, ($6 * $6));
  (8%positive, ($7 * $7));
  (10%positive, (Neg $3));
  (11%positive, ($6 * $2));
  (15%positive, ($10 * $10));
  (19%positive, ($15 * $10));
  (23%positive, ($15 * $15));
  (26%positive, ($23 * $10));
  (29%positive, ($23 * $15));
  (32%positive, ($23 * $19));
  (35%positive, ($23 * $23));
  (43%positive, ($2 * X));
  (44%positive, ($6 * $43));
  (47%positive, ($6 * X))], ((((($1 * $4) * (((((((((#71378973833068664712069120000 * $8) + (((#1070684607496029970681036800000 * $10) * $7) * $11)) + (((#4871614964106936366598717440000 * $15) * $7) * $6)) + (((#8931294100862716672097648640000 * $19) * $7) * $2)) + ((#7176932759621825897221324800000 * $23) * $7)) + ((#2511926465867639064027463680000 * $26) * $11)) + ((#348878675814949870003814400000 * $29) * $6)) + ((#14951943249212137285877760000 * $32) * $2)) + (#84954223006887143669760000 * $35))) * X) / #95171965110758219616092160000) - (((($1 * $4) * $3) * (((((((((#3283432796321158576755179520000 * $7) * $44) + (((#34476044361372165055929384960000 * $10) * $7) * $47)) + (((#112047144174459536431770501120000 * $15) * $7) * $43)) + (((#146728403085601773898747084800000 * $19) * $7) * X)) + ((#82534726735650997818045235200000 * $23) * $44)) + ((#19258102904985232824210554880000 * $26) * $47)) + ((#1604841908748769402017546240000 * $29) * $43)) + ((#31263154066534468870471680000 * $32) * X))) / #285515895332274658848276480000))).
(** source/ass_leg_function.cc 11737-11775 *)
Definition P_19_4 : prog := ([(1%positive, (Sqrt #8580495));
  (2%positive, (X * X));
  (3%positive, (#1 - $2));
  (4%positive, ($3 * $3));
  (6%positive, ($2 * X));
  (7%positive, ($2 * $2));
  (8%positive, ($7 * $6));
  (9%positive, ($7 * $7));
  (12%positive, (Neg $3));
  (13%positive, ($7 * X));
  (17%positive, ($12 * $12));
  (21%positive, ($17 * $12));
  (25%positive, ($17 * $17))], ((($1 * $4) * (((((((((#3283432796321158576755179520000 * $9) * $8) + (((#34476044361372165055929384960000 * $12) * $9) * $13)) + (((#112047144174459536431770501120000 * $17) * $9) * $6)) + (((#146728403085601773898747084800000 * $21) * $9) * X)) + ((#82534726735650997818045235200000 * $25) * $8)) + (((#19258102904985232824210554880000 * $25) * $12) * $13)) + (((#1604841908748769402017546240000 * $25) * $17) * $6)) + (((#31263154066534468870471680000 * $25) * $21) * X))) / #26267462370569268614041436160000)).
(** source/ass_leg_function.cc 11780-11836 *)
Definition P_19_4_Deriv : prog := ([(1%positive, (Sqrt #8580495));
  (2%positive, (X * X));
  (3%positive, (#1 - $2));
  (5%positive, ($2 * X));
  (6%positive, ($2 * $2));
  (7%positive, ($6 * $5));
  (8%positive, ($6 * $6));
  (11%positive, (Neg $3));
  (12%positive, ($6 * X));
  (16%positive, ($11 * $11));
  (20%positive, ($16 * $11));
  (24%positive, ($16 * $16));
  (27%positive, ($24 * $11));
  (30%positive, ($24 * $16));
  (33%positive, ($24 * $20));
  (40%positive, ($3 * $3));
  (42%positive, ($6 * $2))], ((((((Neg $1) * $3) * (((((((((#3283432796321158576755179520000 * $7) * $8) + (((#34476044361372165055929384960000 * $11) * $8) * $12)) + (((#112047144174459536431770501120000 * $16) * $8) * $5)) + (((#146728403085601773898747084800000 * $20) * $8) * X)) + ((#82534726735650997818045235200000 * $24) * $7)) + ((#19258102904985232824210554880000 * $27) * $12)) + ((#1604841908748769402017546240000 * $30) * $5)) + ((#31263154066534468870471680000 * $33) * X))) * X) / #6566865592642317153510359040000) + ((($1 * $40) * (((((((((#118203580667561708763186462720000 * $8) * $42) + (((#896377153395676291454164008960000 * $11) * $8) * $6)) + (((#2112889004432665544141958021120000 * $16) * $8) * $2)) + ((#1980833441655623947633085644800000 * $20) * $8)) + ((#770324116199409312968422195200000 * $24) * $42)) + ((#115548617429911396945263329280000 * $27) * $6)) + ((#5252209883177790770239242240000 * $30) * $2)) + (#31263154066534468870471680000 * $33))) / #26267462370569268614041436160000))).
(** source/ass_leg_function.cc 11841-11877 *)
Definition P_19_5 : prog := ([(1%positive, (Sqrt #3432198));
  (2%positive, (X * X));
  (3%positive, (#1 - $2));
  (4%positive, ($3 * $3));
  (5%positive, (Sqrt $3));
  (8%positive, ($2 * $2));
  (9%positive, ($8 * $2));
  (10%positive, ($8 * $8));
  (13%positive, (Neg $3));
  (17%positive, ($13 * $13));
  (21%positive, ($17 * $13));
  (24%positive, ($17 * $17))], (((((Neg $1) * $5) * $4) * (((((((((#118203580667561708763186462720000 * $10) * $9) + (((#896377153395676291454164008960000 * $13) * $10) * $8)) + (((#2112889004432665544141958021120000 * $17) * $10) * $2)) + ((#1980833441655623947633085644800000 * $21) * $10)) + ((#770324116199409312968422195200000 * $24) * $9)) + (((#115548617429911396945263329280000 * $24) * $13) * $8)) + (((#5252209883177790770239242240000 * $24) * $17) * $2)) + ((#31263154066534468870471680000 * $24) * $21))) / #315209548446831223368497233920000)).
(** source/ass_leg_function.cc 11882-11935 *)
Definition P_19_5_Deriv : prog := ([(1%positive, (Sqrt #3432198));
  (2%positive, (X * X));
  (3%positive, (#1 - $2));
  (4%positive, (Sqrt $3));
  (7%positive, ($2 * $2));
  (8%positive, ($7 * $2));
  (9%positive, ($7 * $7));
  (12%positive, (Neg $3));
  (16%positive, ($12 * $12));
  (20%positive, ($16 * $12));
  (23%positive, ($16 * $16));
  (26%positive, ($23 * $12));
  (29%positive, ($23 * $16));
  (38%positive, ($3 * $3));
  (41%positive, ($7 * X));
  (44%positive, ($2 * X))], (((((($1 * $4) * $3) * (((((((((#118203580667561708763186462720000 * $8) * $9) + (((#896377153395676291454164008960000 * $12) * $9) * $7)) + (((#2112889004432665544141958021120000 * $16) * $9) * $2)) + ((#1980833441655623947633085644800000 * $20) * $9)) + ((#770324116199409312968422195200000 * $23) * $8)) + ((#115548617429911396945263329280000 * $26) * $7)) + ((#5252209883177790770239242240000 * $29) * $2)) + ((#31263154066534468870471680000 * $23) * $20))) * X) / #63041909689366244673699446784000) - (((($1 * $4) * $38) * ((((((((#3447604436137216505592938496000000 * $9) * $41) + (((#19208081858478777674017800192000000 * $12) * $9) * $44)) + (((#33013890694260399127218094080000000 * $16) * $9) * X)) + (((#22009260462840266084812062720000000 * $20) * $7) * $44)) + ((#5777430871495569847263166464000000 * $23) * $41)) + ((#525220988317779077023924224000000 * $26) * $44)) + ((#10942103923287064104665088000000 * $29) * X))) / #315209548446831223368497233920000))).
(** source/ass_leg_function.cc 11940-11973 *)
Definition P_19_6 : prog := ([(1%positive, (Sqrt #245157));
  (2%positive, (X * X));
  (3%positive, (#1 - $2));
  (4%positive, ($3 * $3));
  (7%positive, ($2 * $2));
  (8%positive, ($7 * X));
  (9%positive, ($7 * $7));
  (12%positive, (Neg $3));
  (13%positive, ($2 * X));
  (17%positive, ($12 * $12));
  (25%positive, ($17 * $17))], (((($1 * $4) * $3) * ((((((((#3447604436137216505592938496000000 * $8) * $9) + (((#19208081858478777674017800192000000 * $12) * $9) * $13)) + (((#33013890694260399127218094080000000 * $17) * $9) * X)) + ((((#22009260462840266084812062720000000 * $17) * $12) * $7) * $13)) + ((#5777430871495569847263166464000000 * $25) * $8)) + (((#525220988317779077023924224000000 * $25) * $12) * $13)) + (((#10942103923287064104665088000000 * $25) * $17) * X))) / #1576047742234156116842486169600000)).
(** source/ass_leg_function.cc 11978-12026 *)
Definition P_19_6_Deriv : prog := ([(1%positive, (Sqrt #245157));
  (2%positive, (X * X));
  (3%positive, (#1 - $2));
  (4%positive, ($3 * $3));
  (6%positive, ($2 * $2));
  (7%positive, ($6 * X));
  (8%positive, ($6 * $6));
  (11%positive, (Neg $3));
  (12%positive, ($2 * X));
  (16%positive, ($11 * $11));
  (20%positive, ($16 * $11));
  (24%positive, ($16 * $16));
  (27%positive, ($24 * $11));
  (30%positive, ($24 * $16))], ((((((Neg $1) * $4) * ((((((((#3447604436137216505592938496000000 * $8) * $7) + (((#19208081858478777674017800192000000 * $11) * $8) * $12)) + (((#33013890694260399127218094080000000 * $16) * $8) * X)) + (((#22009260462840266084812062720000000 * $20) * $6) * $12)) + ((#5777430871495569847263166464000000 * $24) * $7)) + ((#525220988317779077023924224000000 * $27) * $12)) + ((#10942103923287064104665088000000 * $30) * X))) * X) / #262674623705692686140414361600000) + (((($1 * $4) * $3) * ((((((((#83235021386741369920743800832000000 * $8) * $6) + (((#343344463220308150923068178432000000 * $11) * $8) * $2)) + ((#429180579025385188653835223040000000 * $16) * $8)) + (((#200284270211846421371789770752000000 * $20) * $6) * $2)) + ((#34139364240655640006555074560000000 * $24) * $6)) + ((#1706968212032782000327753728000000 * $27) * $2)) + (#10942103923287064104665088000000 * $30))) / #1576047742234156116842486169600000))).
(** source/ass_leg_function.cc 12031-12062 *)
Definition P_19_7 : prog := ([(1%positive, (Sqrt #490314));
  (2%positive, (X * X));
  (3%positive, (#1 - $2));
  (4%positive, ($3 * $3));
  (6%positive, (Sqrt $3));
  (9%positive, ($2 * $2));
  (10%positive, ($9 * $9));
  (13%positive, (Neg $3));
  (17%positive, ($13 * $13));
  (24%positive, ($17 * $17))], ((((((Neg $1) * $6) * $4) * $3) * ((((((((#83235021386741369920743800832000000 * $10) * $9) + (((#343344463220308150923068178432000000 * $13) * $10) * $2)) + ((#429180579025385188653835223040000000 * $17) * $10)) + ((((#200284270211846421371789770752000000 * $17) * $13) * $9) * $2)) + ((#34139364240655640006555074560000000 * $24) * $9)) + (((#1706968212032782000327753728000000 * $24) * $13) * $2)) + ((#10942103923287064104665088000000 * $24) * $17))) / #40977241298088059037904640409600000)).
(** source/ass_leg_function.cc 12067-12112 *)
Definition P_19_7_Deriv : prog := ([(1%positive, (Sqrt #490314));
  (2%positive, (X * X));
  (3%positive, (#1 - $2));
  (4%positive, ($3 * $3));
  (5%positive, (Sqrt $3));
  (8%positive, ($2 * $2));
  (9%positive, ($8 * $8));
  (12%positive, (Neg $3));
  (16%positive, ($12 * $12));
  (19%positive, ($16 * $12));
  (23%positive, ($16 * $16));
  (26%positive, ($23 * $12));
  (38%positive, ($2 * X))], (((((($1 * $5) * $4) * ((((((((#83235021386741369920743800832000000 * $9) * $8) + (((#343344463220308150923068178432000000 * $12) * $9) * $2)) + ((#429180579025385188653835223040000000 * $16) * $9)) + (((#200284270211846421371789770752000000 * $19) * $8) * $2)) + ((#34139364240655640006555074560000000 * $23) * $8)) + ((#1706968212032782000327753728000000 * $26) * $2)) + ((#10942103923287064104665088000000 * $23) * $16))) * X) / #5853891614012579862557805772800000) - ((((($1 * $5) * $4) * $3) * (((((((#1685509183081512740895061966848000000 * $9) * $38) + (((#5150166948304622263846022676480000000 * $12) * $9) * X)) + (((#4635150253474160037461420408832000000 * $16) * $8) * $38)) + (((#1474820535196323648283179220992000000 * $19) * $8) * X)) + ((#153627139082950380029497835520000000 * $23) * $38)) + ((#3545241671145008769911488512000000 * $26) * X))) / #40977241298088059037904640409600000))).
(** source/ass_leg_function.cc 12117-12149 *)
Definition P_19_8 : prog := ([(1%positive, (Sqrt #490314));
  (2%positive, (X * X));
  (3%positive, (#1 - $2));
  (4%positive, ($3 * $3));
  (5%positive, ($4 * $4));
  (7%positive, ($2 * X));
  (8%positive, ($2 * $2));
  (9%positive, ($8 * $8));
  (12%positive, (Neg $3));
  (16%positive, ($12 * $12));
  (24%positive, ($16 * $16))], ((($1 * $5) * (((((((#1685509183081512740895061966848000000 * $9) * $7) + (((#5150166948304622263846022676480000000 * $12) * $9) * X)) + (((#4635150253474160037461420408832000000 * $16) * $8) * $7)) + ((((#1474820535196323648283179220992000000 * $16) * $12) * $8) * X)) + ((#153627139082950380029497835520000000 * $24) * $7)) + (((#3545241671145008769911488512000000 * $24) * $12) * X))) / #737590343365585062682283527372800000)).
(** source/ass_leg_function.cc 12154-12198 *)
Definition P_19_8_Deriv : prog := ([(1%positive, (Sqrt #490314));
  (2%positive, (X * X));
  (3%positive, (#1 - $2));
  (4%positive, ($3 * $3));
  (7%positive, ($2 * X));
  (8%positive, ($2 * $2));
  (9%positive, ($8 * $8));
  (12%positive, (Neg $3));
  (16%positive, ($12 * $12));
  (20%positive, ($16 * $12));
  (24%positive, ($16 * $16));
  (27%positive, ($24 * $12));
  (34%positive, ($4 * $4))], (((((((Neg $1) * $4) * $3) * (((((((#1685509183081512740895061966848000000 * $9) * $7) + (((#5150166948304622263846022676480000000 * $12) * $9) * X)) + (((#4635150253474160037461420408832000000 * $16) * $8) * $7)) + (((#1474820535196323648283179220992000000 * $20) * $8) * X)) + ((#153627139082950380029497835520000000 * $24) * $7)) + ((#3545241671145008769911488512000000 * $27) * X))) * X) / #92198792920698132835285440921600000) + ((($1 * $34) * (((((((#28840934910505884677537726988288000000 * $9) * $2) + ((#64892103548638240524459885723648000000 * $12) * $9)) + (((#41294974985497062151929018187776000000 * $16) * $8) * $2)) + ((#8603119788645221281651878789120000000 * $20) * $8)) + ((#496333833960301227787608391680000000 * $24) * $2)) + (#3545241671145008769911488512000000 * $27))) / #737590343365585062682283527372800000))).
(** source/ass_leg_function.cc 12203-12235 *)
Definition P_19_9 : prog := ([(1%positive, (Sqrt #312018));
  (2%positive, (X * X));
  (3%positive, (#1 - $2));
  (4%positive, ($3 * $3));
  (5%positive, ($4 * $4));
  (6%positive, (Sqrt $3));
  (9%positive, ($2 * $2));
  (10%positive, ($9 * $9));
  (13%positive, (Neg $3));
  (16%positive, ($13 * $13));
  (23%positive, ($16 * $16))], (((((Neg $1) * $6) * $5) * (((((((#28840934910505884677537726988288000000 * $10) * $2) + ((#64892103548638240524459885723648000000 * $13) * $10)) + (((#41294974985497062151929018187776000000 * $16) * $9) * $2)) + (((#8603119788645221281651878789120000000 * $16) * $13) * $9)) + ((#496333833960301227787608391680000000 * $23) * $2)) + ((#3545241671145008769911488512000000 * $23) * $13))) / #10326264807118190877551969383219200000)).
(** source/ass_leg_function.cc 12240-12283 *)
Definition P_19_9_Deriv : prog := ([(1%positive, (Sqrt #312018));
  (2%positive, (X * X));
  (3%positive, (#1 - $2));
  (4%positive, ($3 * $3));
  (6%positive, (Sqrt $3));
  (9%positive, ($2 * $2));
  (10%positive, ($9 * $9));
  (13%positive, (Neg $3));
  (16%positive, ($13 * $13));
  (20%positive, ($16 * $13));
  (23%positive, ($16 * $16));
  (32%positive, ($4 * $4));
  (37%positive, ($2 * X))], ((((((($1 * $6) * $4) * $3) * (((((((#28840934910505884677537726988288000000 * $10) * $2) + ((#64892103548638240524459885723648000000 * $13) * $10)) + (((#41294974985497062151929018187776000000 * $16) * $9) * $2)) + ((#8603119788645221281651878789120000000 * $20) * $9)) + ((#496333833960301227787608391680000000 * $23) * $2)) + ((#3545241671145008769911488512000000 * $23) * $13))) * X) / #1147362756346465653061329931468800000) - (((($1 * $6) * $32) * ((((((#418193556202335327824297041330176000000 * $10) * X) + (((#684316728331094172803395158540288000000 * $13) * $9) * $37)) + (((#299388568644853700601485381861376000000 * $16) * $9) * X)) + ((#38383149826263294948908382289920000000 * $20) * $37)) + ((#1028120084632052543274331668480000000 * $23) * X))) / #10326264807118190877551969383219200000))).
(** source/ass_leg_function.cc 12288-12319 *)
Definition P_19_10 : prog := ([(1%positive, (Sqrt #22621305));
  (2%positive, (X * X));
  (3%positive, (#1 - $2));
  (4%positive, ($3 * $3));
  (5%positive, ($4 * $4));
  (8%positive, ($2 * $2));
  (9%positive, ($8 * $8));
  (12%positive, (Neg $3));
  (13%positive, ($2 * X));
  (17%positive, ($12 * $12));
  (24%positive, ($17 * $17))], (((($1 * $5) * $3) * ((((((#418193556202335327824297041330176000000 * $9) * X) + (((#684316728331094172803395158540288000000 * $12) * $8) * $13)) + (((#299388568644853700601485381861376000000 * $17) * $8) * X)) + (((#38383149826263294948908382289920000000 * $17) * $12) * $13)) + ((#1028120084632052543274331668480000000 * $24) * X))) / #1497308397032137677245035560566784000000)).
(** source/ass_leg_function.cc 12324-12364 *)
Definition P_19_10_Deriv : prog := ([(1%positive, (Sqrt #22621305));
  (2%positive, (X * X));
  (3%positive, (#1 - $2));
  (4%positive, ($3 * $3));
  (5%positive, ($4 * $4));
  (7%positive, ($2 * $2));
  (8%positive, ($7 * $7));
  (11%positive, (Neg $3));
  (12%positive, ($2 * X));
  (16%positive, ($11 * $11));
  (20%positive, ($16 * $11));
  (23%positive, ($16 * $16))], ((((((Neg $1) * $5) * ((((((#418193556202335327824297041330176000000 * $8) * X) + (((#684316728331094172803395158540288000000 * $11) * $7) * $12)) + (((#299388568644853700601485381861376000000 * $16) * $7) * X)) + ((#38383149826263294948908382289920000000 * $20) * $12)) + ((#1028120084632052543274331668480000000 * $23) * X))) * X) / #149730839703213767724503556056678400000) + (((($1 * $5) * $3) * (((((#5132375462483206296025463689052160000000 * $8) + (((#5987771372897074012029707637227520000000 * $11) * $7) * $2)) + ((#1727241742181848272700877203046400000000 * $16) * $7)) + ((#123374410155846305192919800217600000000 * $20) * $2)) + (#1028120084632052543274331668480000000 * $23))) / #1497308397032137677245035560566784000000))).
(** source/ass_leg_function.cc 12369-12400 *)
Definition P_19_11 : prog := ([(1%positive, (Sqrt #3016174));
  (2%positive, (X * X));
  (3%positive, (#1 - $2));
  (4%positive, ($3 * $3));
  (5%positive, ($4 * $4));
  (7%positive, (Sqrt $3));
  (10%positive, ($2 * $2));
  (11%positive, ($10 * $10));
  (13%positive, (Neg $3));
  (17%positive, ($13 * $13));
  (23%positive, ($17 * $17))], ((((((Neg $1) * $7) * $5) * $3) * (((((#5132375462483206296025463689052160000000 * $11) + (((#5987771372897074012029707637227520000000 * $13) * $10) * $2)) + ((#1727241742181848272700877203046400000000 * $17) * $10)) + (((#123374410155846305192919800217600000000 * $17) * $13) * $2)) + (#1028120084632052543274331668480000000 * $23))) / #8983850382192826063470213363400704000000)).
(** source/ass_leg_function.cc 12405-12446 *)
Definition P_19_11_Deriv : prog := ([(1%positive, (Sqrt #3016174));
  (2%positive, (X * X));
  (3%positive, (#1 - $2));
  (4%positive, ($3 * $3));
  (5%positive, ($4 * $4));
  (6%positive, (Sqrt $3));
  (9%positive, ($2 * $2));
  (10%positive, ($9 * $9));
  (12%positive, (Neg $3));
  (16%positive, ($12 * $12));
  (19%positive, ($16 * $12));
  (22%positive, ($16 * $16));
  (31%positive, ($2 * X))], (((((($1 * $6) * $5) * (((((#5132375462483206296025463689052160000000 * $10) + (((#5987771372897074012029707637227520000000 * $12) * $9) * $2)) + ((#1727241742181848272700877203046400000000 * $16) * $9)) + ((#123374410155846305192919800217600000000 * $19) * $2)) + (#1028120084632052543274331668480000000 * $22))) * X) / #816713671108438733042746669400064000000) - ((((($1 * $6) * $5) * $3) * (((((#53034546445659798392263124786872320000000 * $9) * $31) + (((#42835595206109837162981754635550720000000 * $12) * $9) * X)) + ((#7649213429662470921961027613491200000000 * $16) * $31)) + ((#254973780988749030732034253783040000000 * $19) * X))) / #8983850382192826063470213363400704000000))).
(** source/ass_leg_function.cc 12451-12477 *)
Definition P_19_12 : prog := ([(1%positive, (Sqrt #46750697));
  (2%positive, (X * X));
  (3%positive, (#1 - $2));
  (4%positive, ($3 * $3));
  (5%positive, ($4 * $4));
  (8%positive, ($2 * X));
  (9%positive, ($2 * $2));
  (12%positive, (Neg $3));
  (16%positive, ($12 * $12))], (((($1 * $5) * $4) * (((((#53034546445659798392263124786872320000000 * $9) * $8) + (((#42835595206109837162981754635550720000000 * $12) * $9) * X)) + ((#7649213429662470921961027613491200000000 * $16) * $8)) + (((#254973780988749030732034253783040000000 * $16) * $12) * X))) / #556998723695955215935153228530843648000000)).
(** source/ass_leg_function.cc 12482-12516 *)
Definition P_19_12_Deriv : prog := ([(1%positive, (Sqrt #46750697));
  (2%positive, (X * X));
  (3%positive, (#1 - $2));
  (4%positive, ($3 * $3));
  (5%positive, ($4 * $4));
  (8%positive, ($2 * X));
  (9%positive, ($2 * $2));
  (12%positive, (Neg $3));
  (16%positive, ($12 * $12));
  (19%positive, ($16 * $12))], (((((((Neg $1) * $5) * $3) * (((((#53034546445659798392263124786872320000000 * $9) * $8) + (((#42835595206109837162981754635550720000000 * $12) * $9) * X)) + ((#7649213429662470921961027613491200000000 * $8) * $16)) + ((#254973780988749030732034253783040000000 * $19) * X))) * X) / #46416560307996267994596102377570304000000) + (((($1 * $5) * $4) * (((((#456913015531838263071805382779207680000000 * $9) * $2) + ((#244774829749199069502752883631718400000000 * $12) * $9)) + ((#24477482974919906950275288363171840000000 * $16) * $2)) + (#254973780988749030732034253783040000000 * $19))) / #556998723695955215935153228530843648000000))).
(** source/ass_leg_function.cc 12521-12547 *)
Definition P_19_13 : prog := ([(1%positive, (Sqrt #13357342));
  (2%positive, (X * X));
  (3%positive, (#1 - $2));
  (4%positive, ($3 * $3));
  (5%positive, ($4 * $4));
  (7%positive, (Sqrt $3));
  (10%positive, ($2 * $2));
  (13%positive, (Neg $3));
  (16%positive, ($13 * $13))], ((((((Neg $1) * $7) * $5) * $4) * (((((#456913015531838263071805382779207680000000 * $10) * $2) + ((#244774829749199069502752883631718400000000 * $13) * $10)) + ((#24477482974919906950275288363171840000000 * $2) * $16)) + ((#254973780988749030732034253783040000000 * $16) * $13))) / #4455989789567641727481225828246749184000000)).
(** source/ass_leg_function.cc 12552-12583 *)
Definition P_19_13_Deriv : prog := ([(1%positive, (Sqrt #13357342));
  (2%positive, (X * X));
  (3%positive, (#1 - $2));
  (4%positive, ($3 * $3));
  (5%positive, ($4 * $4));
  (7%positive, (Sqrt $3));
  (10%positive, ($2 * $2));
  (13%positive, (Neg $3));
  (16%positive, ($13 * $13))], ((((((($1 * $7) * $5) * $3) * (((((#456913015531838263071805382779207680000000 * $10) * $2) + ((#244774829749199069502752883631718400000000 * $13) * $10)) + ((#24477482974919906950275288363171840000000 * $16) * $2)) + ((#254973780988749030732034253783040000000 * $16) * $13))) * X) / #342768445351357055960094294480519168000000) - ((((($1 * $7) * $5) * $4) * ((((#3231027752689427717436338063938682880000000 * $10) * X) + (((#1077009250896475905812112687979560960000000 * $13) * $2) * X)) + ((#50484808635772308084942782249041920000000 * $16) * X))) / #4455989789567641727481225828246749184000000))).
(** source/ass_leg_function.cc 12588-12611 *)
Definition P_19_14 : prog := ([(1%positive, (Sqrt #73465381));
  (2%positive, (X * X));
  (3%positive, (#1 - $2));
  (4%positive, ($3 * $3));
  (6%positive, ($4 * $4));
  (9%positive, ($2 * $2));
  (12%positive, (Neg $3));
  (16%positive, ($12 * $12))], ((((($1 * $6) * $4) * $3) * ((((#3231027752689427717436338063938682880000000 * $9) * X) + (((#1077009250896475905812112687979560960000000 * $12) * $2) * X)) + ((#50484808635772308084942782249041920000000 * $16) * X))) / #147047663055732177006880452332142723072000000)).
(** source/ass_leg_function.cc 12616-12644 *)
Definition P_19_14_Deriv : prog := ([(1%positive, (Sqrt #73465381));
  (2%positive, (X * X));
  (3%positive, (#1 - $2));
  (4%positive, ($3 * $3));
  (5%positive, ($4 * $4));
  (8%positive, ($2 * $2));
  (11%positive, (Neg $3));
  (15%positive, ($11 * $11))], (((((((Neg $1) * $5) * $4) * ((((#3231027752689427717436338063938682880000000 * $8) * X) + (((#1077009250896475905812112687979560960000000 * $2) * $11) * X)) + ((#50484808635772308084942782249041920000000 * $15) * X))) * X) / #10503404503980869786205746595153051648000000) + ((((($1 * $5) * $4) * $3) * (((#18309157265240090398805915695652536320000000 * $8) + ((#3432966987232516949776109192934850560000000 * $11) * $2)) + (#50484808635772308084942782249041920000000 * $15))) / #147047663055732177006880452332142723072000000))).
(** source/ass_leg_function.cc 12649-12674 *)
Definition P_19_15 : prog := ([(1%positive, (Sqrt #43214930));
  (2%positive, (X * X));
  (3%positive, (#1 - $2));
  (4%positive, ($3 * $3));
  (6%positive, ($4 * $4));
  (8%positive, (Sqrt $3));
  (11%positive, ($2 * $2));
  (13%positive, (Neg $3));
  (16%positive, ($13 * $13))], (((((((Neg $1) * $8) * $6) * $4) * $3) * (((#18309157265240090398805915695652536320000000 * $11) + ((#3432966987232516949776109192934850560000000 * $13) * $2)) + (#50484808635772308084942782249041920000000 * $16))) / #1470476630557321770068804523321427230720000000)).
(** source/ass_leg_function.cc 12679-12708 *)
Definition P_19_15_Deriv : prog := ([(1%positive, (Sqrt #43214930));
  (2%positive, (X * X));
  (3%positive, (#1 - $2));
  (4%positive, ($3 * $3));
  (5%positive, ($4 * $4));
  (7%positive, (Sqrt $3));
  (10%positive, ($2 * $2));
  (12%positive, (Neg $3));
  (15%positive, ($12 * $12))], ((((((($1 * $7) * $5) * $4) * (((#18309157265240090398805915695652536320000000 * $10) + ((#3432966987232516949776109192934850560000000 * $12) * $2)) + (#50484808635772308084942782249041920000000 * $15))) * X) / #98031775370488118004586968221428482048000000) - (((((($1 * $7) * $5) * $4) * $3) * (((#80102563035425395494775881168479846400000000 * $2) * X) + ((#7067873209008123131891989514865868800000000 * $12) * X))) / #1470476630557321770068804523321427230720000000))).
(** source/ass_leg_function.cc 12713-12731 *)
Definition P_19_16 : prog := ([(1%positive, (Sqrt #60500902));
  (2%positive, (X * X));
  (3%positive, (#1 - $2));
  (4%positive, ($3 * $3));
  (5%positive, ($4 * $4));
  (6%positive, ($5 * $5))], ((($1 * $6) * (((#80102563035425395494775881168479846400000000 * $2) * X) - ((#7067873209008123131891989514865868800000000 * $3) * X))) / #20586672827802504780963263326499981230080000000)).
(** source/ass_leg_function.cc 12736-12758 *)
Definition P_19_16_Deriv : prog := ([(1%positive, (Sqrt #60500902));
  (2%positive, (X * X));
  (3%positive, (#1 - $2));
  (4%positive, ($3 * $3));
  (6%positive, ($4 * $4));
  (18%positive, ($6 * $6))], ((((((((Neg $1) * $6) * $4) * $3) * (((#80102563035425395494775881168479846400000000 * $2) * X) - ((#7067873209008123131891989514865868800000000 * $3) * X))) * X) / #1286667051737656548810203957906248826880000000) + ((($1 * $18) * ((#261511308733300555880003612050037145600000000 * $2) - #7067873209008123131891989514865868800000000)) / #20586672827802504780963263326499981230080000000))).
(** source/ass_leg_function.cc 12763-12783 *)
Definition P_19_17 : prog := ([(1%positive, (Sqrt #181502706));
  (2%positive, (X * X));
  (3%positive, (#1 - $2));
  (4%positive, ($3 * $3));
  (5%positive, ($4 * $4));
  (6%positive, ($5 * $5));
  (7%positive, (Sqrt $3))], (((((Neg $1) * $7) * $6) * ((#261511308733300555880003612050037145600000000 * $2) - #7067873209008123131891989514865868800000000)) / #370560110900445086057338739876999662141440000000)).
(** source/ass_leg_function.cc 12788-12809 *)
Definition P_19_17_Deriv : prog := ([(1%positive, (Sqrt #181502706));
  (2%positive, (X * X));
  (3%positive, (#1 - $2));
  (4%positive, ($3 * $3));
  (6%positive, ($4 * $4));
  (8%positive, (Sqrt $3));
  (16%positive, ($6 * $6))], (((((((($1 * $8) * $6) * $4) * $3) * ((#261511308733300555880003612050037145600000000 * $2) - #7067873209008123131891989514865868800000000)) * X) / #21797653582379122709255219992764686008320000000) - (((((#185 / #131072) * $1) * $8) * $16) * X))).
(** source/ass_leg_function.cc 12814-12829 *)
Definition P_19_18 : prog := ([(1%positive, (Sqrt #3357800061));
  (2%positive, (X * X));
  (3%positive, (#1 - $2));
  (4%positive, ($3 * $3));
  (5%positive, ($4 * $4));
  (6%positive, ($5 * $5))], (((((#5 / #131072) * $1) * $6) * $3) * X)).
(** source/ass_leg_function.cc 12834-12850 *)
Definition P_19_18_Deriv : prog := ([(1%positive, (Sqrt #3357800061));
  (2%positive, (X * X));
  (3%positive, (#1 - $2));
  (4%positive, ($3 * $3));
  (5%positive, ($4 * $4));
  (6%positive, ($5 * $5))], ((((((Neg #45) / #65536) * $1) * $6) * $2) + ((((#5 / #131072) * $1) * $6) * $3))).
(** source/ass_leg_function.cc 12855-12872 *)
Definition P_19_19 : prog := ([(1%positive, (Sqrt #353452638));
  (2%positive, (X * X));
  (3%positive, (#1 - $2));
  (4%positive, ($3 * $3));
  (5%positive, ($4 * $4));
  (6%positive, ($5 * $5));
  (8%positive, (Sqrt $3))], ((((((Neg #5) / #262144) * $1) * $8) * $6) * $3)).
(** source/ass_leg_function.cc 12877-12894 *)
Definition P_19_19_Deriv : prog := ([(1%positive, (Sqrt #353452638));
  (2%positive, (X * X));
  (3%positive, (#1 - $2));
  (4%positive, ($3 * $3));
  (5%positive, ($4 * $4));
  (6%positive, ($5 * $5));
  (7%positive, (Sqrt $3))], (((((#95 / #262144) * $1) * $7) * $6) * X)).
(** source/ass_leg_function.cc 12897-12928 *)
Definition P_20_0 : prog := ([(1%positive, (X * X));
  (2%positive, ($1 * $1));
  (3%positive, ($2 * $2));
  (4%positive, ($3 * $3));
  (6%positive, ($1 - #1));
  (10%positive, ($6 * $6));
  (13%positive, ($10 * $6));
  (14%positive, ($2 * $1));
  (18%positive, ($10 * $10));
  (32%positive, ($18 * $18))], ((((((((((($4 * $2) + (((#95 * $6) * $4) * $1)) + (((#14535 / #8) * $10) * $4)) + ((((#24225 / #2) * $13) * $3) * $14)) + ((((#2204475 / #64) * $18) * $3) * $2)) + (((((#2909907 / #64) * $18) * $6) * $3) * $1)) + ((((#14549535 / #512) * $18) * $10) * $3)) + ((((#2078505 / #256) * $18) * $13) * $14)) + (((#31177575 / #32768) * $32) * $2)) + ((((#1154725 / #32768) * $32) * $6) * $1)) + (((#46189 / #262144) * $32) * $10))).
(** source/ass_leg_function.cc 12931-12965 *)
Definition P_20_0_Deriv : prog := ([(1%positive, (X * X));
  (2%positive, ($1 * X));
  (3%positive, ($1 * $1));
  (4%positive, ($3 * $3));
  (5%positive, ($4 * $4));
  (8%positive, ($1 - #1));
  (12%positive, ($8 * $8));
  (13%positive, ($3 * $2));
  (17%positive, ($12 * $8));
  (18%positive, ($3 * X));
  (22%positive, ($12 * $12));
  (36%positive, ($22 * $22))], (((((((((((#210 * $5) * $2) + ((((#17955 / #2) * $8) * $5) * X)) + (((#101745 * $12) * $4) * $13)) + ((((#3561075 / #8) * $17) * $4) * $18)) + ((((#27776385 / #32) * $22) * $4) * $2)) + (((((#101846745 / #128) * $22) * $8) * $4) * X)) + ((((#43648605 / #128) * $22) * $12) * $13)) + ((((#130945815 / #2048) * $22) * $17) * $18)) + (((#72747675 / #16384) * $36) * $2)) + ((((#4849845 / #65536) * $36) * $8) * X))).
(** source/ass_leg_function.cc 12970-13014 *)
Definition P_20_1 : prog := ([(1%positive, (Sqrt #105));
  (2%positive, (X * X));
  (3%positive, (#1 - $2));
  (4%positive, (Sqrt $3));
  (6%positive, ($2 * X));
  (7%positive, ($2 * $2));
  (8%positive, ($7 * $7));
  (9%positive, ($8 * $8));
  (12%positive, (Neg $3));
  (16%positive, ($12 * $12));
  (17%positive, ($7 * $6));
  (21%positive, ($16 * $12));
  (22%positive, ($7 * X));
  (26%positive, ($16 * $16));
  (40%positive, ($26 * $26))], ((((Neg $1) * $4) * (((((((((((#535727357786423977574400000 * $9) * $6) + (((#22902344545369625041305600000 * $12) * $9) * X)) + (((#259559904847522417134796800000 * $16) * $8) * $17)) + (((#1135574583707910574964736000000 * $21) * $8) * $22)) + (((#2214370438230425621181235200000 * $26) * $8) * $6)) + ((((#2029839568377890152749465600000 * $26) * $12) * $8) * X)) + (((#869931243590524351178342400000 * $26) * $16) * $17)) + (((#163112108173223315845939200000 * $26) * $21) * $22)) + ((#11327229734251619155968000000 * $40) * $6)) + (((#188787162237526985932800000 * $40) * $12) * X))) / #535727357786423977574400000)).
(** source/ass_leg_function.cc 13019-13085 *)
Definition P_20_1_Deriv : prog := ([(1%positive, (Sqrt #105));
  (2%positive, (X * X));
  (3%positive, (#1 - $2));
  (4%positive, (Sqrt $3));
  (7%positive, ($2 * X));
  (8%positive, ($2 * $2));
  (9%positive, ($8 * $8));
  (10%positive, ($9 * $9));
  (13%positive, (Neg $3));
  (17%positive, ($13 * $13));
  (18%positive, ($8 * $7));
  (22%positive, ($17 * $13));
  (23%positive, ($8 * X));
  (27%positive, ($17 * $17));
  (31%positive, ($27 * $13));
  (35%positive, ($27 * $17));
  (38%positive, ($27 * $22));
  (41%positive, ($27 * $27));
  (44%positive, ($41 * $13));
  (55%positive, ($8 * $2))], ((((($1 / $4) * (((((((((((#535727357786423977574400000 * $10) * $7) + (((#22902344545369625041305600000 * $13) * $10) * X)) + (((#259559904847522417134796800000 * $17) * $9) * $18)) + (((#1135574583707910574964736000000 * $22) * $9) * $23)) + (((#2214370438230425621181235200000 * $27) * $9) * $7)) + (((#2029839568377890152749465600000 * $31) * $9) * X)) + ((#869931243590524351178342400000 * $35) * $18)) + ((#163112108173223315845939200000 * $38) * $23)) + ((#11327229734251619155968000000 * $41) * $7)) + ((#188787162237526985932800000 * $44) * X))) * X) / #535727357786423977574400000) - ((($1 * $4) * (((((((((((#55983508888681305656524800000 * $2) * $10) + ((#1427579476661373294241382400000 * $13) * $10)) + (((#10706846074960299706810368000000 * $17) * $9) * $55)) + (((#32477433094046242443991449600000 * $22) * $9) * $8)) + (((#44656470504313583360488243200000 * $27) * $9) * $2)) + ((#28707731038487303588885299200000 * $31) * $9)) + ((#8373088219558796880091545600000 * $35) * $55)) + ((#996796216614142485725184000000 * $38) * $8)) + ((#37379858123030343214694400000 * $41) * $2)) + (#188787162237526985932800000 * $44))) / #535727357786423977574400000))).
(** source/ass_leg_function.cc 13090-13128 *)
Definition P_20_2 : prog := ([(1%positive, (Sqrt #43890));
  (2%positive, (X * X));
  (3%positive, (#1 - $2));
  (5%positive, ($2 * $2));
  (6%positive, ($5 * $5));
  (7%positive, ($6 * $6));
  (10%positive, (Neg $3));
  (13%positive, ($10 * $10));
  (14%positive, ($5 * $2));
  (18%positive, ($13 * $10));
  (22%positive, ($13 * $13));
  (35%positive, ($22 * $22))], ((($1 * $3) * (((((((((((#55983508888681305656524800000 * $7) * $2) + ((#1427579476661373294241382400000 * $10) * $7)) + (((#10706846074960299706810368000000 * $13) * $6) * $14)) + (((#32477433094046242443991449600000 * $18) * $6) * $5)) + (((#44656470504313583360488243200000 * $22) * $6) * $2)) + (((#28707731038487303588885299200000 * $22) * $10) * $6)) + (((#8373088219558796880091545600000 * $22) * $13) * $14)) + (((#996796216614142485725184000000 * $22) * $18) * $5)) + ((#37379858123030343214694400000 * $35) * $2)) + ((#188787162237526985932800000 * $35) * $10))) / #223934035554725222626099200000)).
(** source/ass_leg_function.cc 13133-13192 *)
Definition P_20_2_Deriv : prog := ([(1%positive, (Sqrt #43890));
  (3%positive, (X * X));
  (4%positive, ($3 * $3));
  (5%positive, ($4 * $4));
  (6%positive, ($5 * $5));
  (9%positive, ($3 - #1));
  (12%positive, ($9 * $9));
  (13%positive, ($4 * $3));
  (17%positive, ($12 * $9));
  (21%positive, ($12 * $12));
  (25%positive, ($21 * $9));
  (28%positive, ($21 * $12));
  (31%positive, ($21 * $17));
  (34%positive, ($21 * $21));
  (46%positive, ($3 * X));
  (47%positive, ($4 * $46));
  (51%positive, ($4 * X))], (((((Neg $1) * X) * (((((((((((#55983508888681305656524800000 * $6) * $3) + ((#1427579476661373294241382400000 * $9) * $6)) + (((#10706846074960299706810368000000 * $12) * $5) * $13)) + (((#32477433094046242443991449600000 * $17) * $5) * $4)) + (((#44656470504313583360488243200000 * $21) * $5) * $3)) + ((#28707731038487303588885299200000 * $25) * $5)) + ((#8373088219558796880091545600000 * $28) * $13)) + ((#996796216614142485725184000000 * $31) * $4)) + ((#37379858123030343214694400000 * $34) * $3)) + ((#188787162237526985932800000 * $34) * $9))) / #111967017777362611313049600000) - ((($1 * $9) * ((((((((((#3862862113319010090300211200000 * $6) * X) + (((#65668655926423171535103590400000 * $9) * $5) * $47)) + (((#344760443613721650559293849600000 * $12) * $5) * $51)) + (((#746980961163063576211803340800000 * $17) * $5) * $46)) + (((#733642015428008869493735424000000 * $21) * $5) * X)) + ((#330138906942603991272180940800000 * $25) * $47)) + ((#64193676349950776080701849600000 * $28) * $51)) + ((#4585262596425055434335846400000 * $31) * $46)) + ((#78157885166336172176179200000 * $34) * X))) / #223934035554725222626099200000))).
(** source/ass_leg_function.cc 13197-13240 *)
Definition P_20_3 : prog := ([(1%positive, (Sqrt #504735));
  (2%positive, (X * X));
  (3%positive, (#1 - $2));
  (4%positive, (Sqrt $3));
  (7%positive, ($2 * $2));
  (8%positive, ($7 * $7));
  (9%positive, ($8 * $8));
  (12%positive, (Neg $3));
  (13%positive, ($2 * X));
  (14%positive, ($7 * $13));
  (18%positive, ($12 * $12));
  (19%positive, ($7 * X));
  (23%positive, ($18 * $12));
  (27%positive, ($18 * $18));
  (40%positive, ($27 * $27))], (((((Neg $1) * $4) * $3) * ((((((((((#3862862113319010090300211200000 * $9) * X) + (((#65668655926423171535103590400000 * $12) * $8) * $14)) + (((#344760443613721650559293849600000 * $18) * $8) * $19)) + (((#746980961163063576211803340800000 * $23) * $8) * $13)) + (((#733642015428008869493735424000000 * $27) * $8) * X)) + (((#330138906942603991272180940800000 * $27) * $12) * $14)) + (((#64193676349950776080701849600000 * $27) * $18) * $19)) + (((#4585262596425055434335846400000 * $27) * $23) * $13)) + ((#78157885166336172176179200000 * $40) * X))) / #15451448453276040361200844800000)).
(** source/ass_leg_function.cc 13245-13307 *)
Definition P_20_3_Deriv : prog := ([(1%positive, (Sqrt #504735));
  (2%positive, (X * X));
  (3%positive, (#1 - $2));
  (4%positive, (Sqrt $3));
  (6%positive, ($2 * $2));
  (7%positive, ($6 * $6));
  (8%positive, ($7 * $7));
  (11%positive, (Neg $3));
  (12%positive, ($2 * X));
  (13%positive, ($6 * $12));
  (17%positive, ($11 * $11));
  (18%positive, ($6 * X));
  (22%positive, ($17 * $11));
  (26%positive, ($17 * $17));
  (30%positive, ($26 * $11));
  (33%positive, ($26 * $17));
  (36%positive, ($26 * $22));
  (39%positive, ($26 * $26));
  (49%positive, ($6 * $2))], ((((($1 * $4) * ((((((((((#3862862113319010090300211200000 * $8) * X) + (((#65668655926423171535103590400000 * $11) * $7) * $13)) + (((#344760443613721650559293849600000 * $17) * $7) * $18)) + (((#746980961163063576211803340800000 * $22) * $12) * $7)) + (((#733642015428008869493735424000000 * $26) * $7) * X)) + ((#330138906942603991272180940800000 * $30) * $13)) + ((#64193676349950776080701849600000 * $33) * $18)) + ((#4585262596425055434335846400000 * $36) * $12)) + ((#78157885166336172176179200000 * $39) * X))) * X) / #5150482817758680120400281600000) - (((($1 * $4) * $3) * (((((((((#197005967779269514605310771200000 * $8) + (((#2364071613351234175263729254400000 * $11) * $7) * $49)) + (((#8963771533956762914541640089600000 * $17) * $7) * $6)) + (((#14085926696217770294279720140800000 * $22) * $7) * $2)) + ((#9904167208278119738165428224000000 * $26) * $7)) + ((#3081296464797637251873688780800000 * $30) * $49)) + ((#385162058099704656484211097600000 * $33) * $6)) + ((#15006313951936545057826406400000 * $36) * $2)) + (#78157885166336172176179200000 * $39))) / #15451448453276040361200844800000))).
(** source/ass_leg_function.cc 13312-13351 *)
Definition P_20_4 : prog := ([(1%positive, (Sqrt #5720330));
  (2%positive, (X * X));
  (3%positive, (#1 - $2));
  (4%positive, ($3 * $3));
  (6%positive, ($2 * $2));
  (7%positive, ($6 * $6));
  (8%positive, ($7 * $7));
  (10%positive, (Neg $3));
  (11%positive, ($6 * $2));
  (15%positive, ($10 * $10));
  (19%positive, ($15 * $10));
  (23%positive, ($15 * $15));
  (35%positive, ($23 * $23))], ((($1 * $4) * (((((((((#197005967779269514605310771200000 * $8) + (((#2364071613351234175263729254400000 * $10) * $7) * $11)) + (((#8963771533956762914541640089600000 * $15) * $7) * $6)) + (((#14085926696217770294279720140800000 * $19) * $7) * $2)) + ((#9904167208278119738165428224000000 * $23) * $7)) + (((#3081296464797637251873688780800000 * $23) * $10) * $11)) + (((#385162058099704656484211097600000 * $23) * $15) * $6)) + (((#15006313951936545057826406400000 * $23) * $19) * $2)) + (#78157885166336172176179200000 * $35))) / #1050698494822770744561657446400000)).
(** source/ass_leg_function.cc 13356-13417 *)
Definition P_20_4_Deriv : prog := ([(1%positive, (Sqrt #5720330));
  (2%positive, (X * X));
  (3%positive, (#1 - $2));
  (5%positive, ($2 * $2));
  (6%positive, ($5 * $5));
  (7%positive, ($6 * $6));
  (9%positive, (Neg $3));
  (10%positive, ($5 * $2));
  (14%positive, ($9 * $9));
  (18%positive, ($14 * $9));
  (22%positive, ($14 * $14));
  (25%positive, ($22 * $9));
  (28%positive, ($22 * $14));
  (31%positive, ($22 * $18));
  (34%positive, ($22 * $22));
  (40%positive, ($3 * $3));
  (42%positive, ($2 * X));
  (43%positive, ($5 * $42));
  (46%positive, ($5 * X))], ((((((Neg $1) * $3) * (((((((((#197005967779269514605310771200000 * $7) + (((#2364071613351234175263729254400000 * $9) * $6) * $10)) + (((#8963771533956762914541640089600000 * $14) * $6) * $5)) + (((#14085926696217770294279720140800000 * $18) * $6) * $2)) + ((#9904167208278119738165428224000000 * $22) * $6)) + ((#3081296464797637251873688780800000 * $25) * $10)) + ((#385162058099704656484211097600000 * $28) * $5)) + ((#15006313951936545057826406400000 * $31) * $2)) + (#78157885166336172176179200000 * $34))) * X) / #262674623705692686140414361600000) + ((($1 * $40) * (((((((((#7880238711170780584212430848000000 * $6) * $43) + (((#68952088722744330111858769920000000 * $9) * $6) * $46)) + (((#192080818584787776740178001920000000 * $14) * $6) * $42)) + (((#220092604628402660848120627200000000 * $18) * $6) * X)) + ((#110046302314201330424060313600000000 * $22) * $43)) + ((#23109723485982279389052665856000000 * $25) * $46)) + ((#1750736627725930256746414080000000 * $28) * $42)) + ((#31263154066534468870471680000000 * $31) * X))) / #1050698494822770744561657446400000))).
(** source/ass_leg_function.cc 13422-13462 *)
Definition P_20_5 : prog := ([(1%positive, (Sqrt #5720330));
  (2%positive, (X * X));
  (3%positive, (#1 - $2));
  (4%positive, ($3 * $3));
  (5%positive, (Sqrt $3));
  (8%positive, ($2 * X));
  (9%positive, ($2 * $2));
  (10%positive, ($9 * $8));
  (11%positive, ($9 * $9));
  (14%positive, (Neg $3));
  (15%positive, ($9 * X));
  (19%positive, ($14 * $14));
  (23%positive, ($19 * $14));
  (27%positive, ($19 * $19))], (((((Neg $1) * $5) * $4) * (((((((((#7880238711170780584212430848000000 * $11) * $10) + (((#68952088722744330111858769920000000 * $14) * $11) * $15)) + (((#192080818584787776740178001920000000 * $19) * $11) * $8)) + (((#220092604628402660848120627200000000 * $23) * $11) * X)) + ((#110046302314201330424060313600000000 * $27) * $10)) + (((#23109723485982279389052665856000000 * $27) * $14) * $15)) + (((#1750736627725930256746414080000000 * $27) * $19) * $8)) + (((#31263154066534468870471680000000 * $27) * $23) * X))) / #21013969896455414891233148928000000)).
(** source/ass_leg_function.cc 13467-13525 *)
Definition P_20_5_Deriv : prog := ([(1%positive, (Sqrt #5720330));
  (2%positive, (X * X));
  (3%positive, (#1 - $2));
  (4%positive, (Sqrt $3));
  (7%positive, ($2 * X));
  (8%positive, ($2 * $2));
  (9%positive, ($8 * $7));
  (10%positive, ($8 * $8));
  (13%positive, (Neg $3));
  (14%positive, ($8 * X));
  (18%positive, ($13 * $13));
  (22%positive, ($18 * $13));
  (26%positive, ($18 * $18));
  (29%positive, ($26 * $13));
  (32%positive, ($26 * $18));
  (35%positive, ($26 * $22));
  (42%positive, ($3 * $3));
  (45%positive, ($8 * $2))], (((((($1 * $4) * $3) * (((((((((#7880238711170780584212430848000000 * $9) * $10) + (((#68952088722744330111858769920000000 * $13) * $10) * $14)) + (((#192080818584787776740178001920000000 * $18) * $10) * $7)) + (((#220092604628402660848120627200000000 * $22) * $10) * X)) + ((#110046302314201330424060313600000000 * $26) * $9)) + ((#23109723485982279389052665856000000 * $29) * $14)) + ((#1750736627725930256746414080000000 * $32) * $7)) + ((#31263154066534468870471680000000 * $35) * X))) * X) / #4202793979291082978246629785600000) - (((($1 * $4) * $42) * (((((((((#256107758113050368986904002560000000 * $10) * $45) + (((#1664700427734827398414876016640000000 * $13) * $10) * $8)) + (((#3433444632203081509230681784320000000 * $18) * $10) * $2)) + ((#2861203860169234591025568153600000000 * $22) * $10)) + ((#1001421351059232106858948853760000000 * $26) * $45)) + ((#136557456962622560026220298240000000 * $29) * $8)) + ((#5689894040109273334425845760000000 * $32) * $2)) + (#31263154066534468870471680000000 * $35))) / #21013969896455414891233148928000000))).
(** source/ass_leg_function.cc 13530-13564 *)
Definition P_20_6 : prog := ([(1%positive, (Sqrt #22309287));
  (2%positive, (X * X));
  (3%positive, (#1 - $2));
  (4%positive, ($3 * $3));
  (7%positive, ($2 * $2));
  (8%positive, ($7 * $2));
  (9%positive, ($7 * $7));
  (12%positive, (Neg $3));
  (16%positive, ($12 * $12));
  (20%positive, ($16 * $12));
  (23%positive, ($16 * $16))], (((($1 * $4) * $3) * (((((((((#256107758113050368986904002560000000 * $9) * $8) + (((#1664700427734827398414876016640000000 * $12) * $9) * $7)) + (((#3433444632203081509230681784320000000 * $16) * $9) * $2)) + ((#2861203860169234591025568153600000000 * $20) * $9)) + ((#1001421351059232106858948853760000000 * $23) * $8)) + (((#136557456962622560026220298240000000 * $23) * $12) * $7)) + (((#5689894040109273334425845760000000 * $23) * $16) * $2)) + ((#31263154066534468870471680000000 * $23) * $20))) / #819544825961761180758092808192000000)).
(** source/ass_leg_function.cc 13569-13620 *)
Definition P_20_6_Deriv : prog := ([(1%positive, (Sqrt #22309287));
  (2%positive, (X * X));
  (3%positive, (#1 - $2));
  (4%positive, ($3 * $3));
  (6%positive, ($2 * $2));
  (7%positive, ($6 * $2));
  (8%positive, ($6 * $6));
  (11%positive, (Neg $3));
  (15%positive, ($11 * $11));
  (19%positive, ($15 * $11));
  (22%positive, ($15 * $15));
  (25%positive, ($22 * $11));
  (28%positive, ($22 * $15));
  (39%positive, ($6 * X));
  (42%positive, ($2 * X))], ((((((Neg $1) * $4) * (((((((((#256107758113050368986904002560000000 * $7) * $8) + (((#1664700427734827398414876016640000000 * $11) * $8) * $6)) + (((#3433444632203081509230681784320000000 * $15) * $8) * $2)) + ((#2861203860169234591025568153600000000 * $19) * $8)) + ((#1001421351059232106858948853760000000 * $7) * $22)) + ((#136557456962622560026220298240000000 * $25) * $6)) + ((#5689894040109273334425845760000000 * $28) * $2)) + ((#31263154066534468870471680000000 * $22) * $19))) * X) / #136590804326960196793015468032000000) + (((($1 * $4) * $3) * ((((((((#6914909469052359962646408069120000000 * $8) * $39) + (((#33710183661630254817901239336960000000 * $11) * $8) * $42)) + (((#51501669483046222638460226764800000000 * $15) * $8) * X)) + (((#30901001689827733583076136058880000000 * $19) * $6) * $42)) + ((#7374102675981618241415896104960000000 * $22) * $39)) + ((#614508556331801520117991342080000000 * $25) * $42)) + ((#11817472237150029233038295040000000 * $28) * X))) / #819544825961761180758092808192000000))).
(** source/ass_leg_function.cc 13625-13660 *)
Definition P_20_7 : prog := ([(1%positive, (Sqrt #2124694));
  (2%positive, (X * X));
  (3%positive, (#1 - $2));
  (4%positive, ($3 * $3));
  (6%positive, (Sqrt $3));
  (9%positive, ($2 * $2));
  (10%positive, ($9 * X));
  (11%positive, ($9 * $9));
  (14%positive, (Neg $3));
  (15%positive, ($2 * X));
  (19%positive, ($14 * $14));
  (27%positive, ($19 * $19))], ((((((Neg $1) * $6) * $4) * $3) * ((((((((#6914909469052359962646408069120000000 * $11) * $10) + (((#33710183661630254817901239336960000000 * $14) * $11) * $15)) + (((#51501669483046222638460226764800000000 * $19) * $11) * X)) + ((((#30901001689827733583076136058880000000 * $19) * $14) * $9) * $15)) + ((#7374102675981618241415896104960000000 * $27) * $10)) + (((#614508556331801520117991342080000000 * $27) * $14) * $15)) + (((#11817472237150029233038295040000000 * $27) * $19) * X))) / #4917268955770567084548556849152000000)).
(** source/ass_leg_function.cc 13665-13715 *)
Definition P_20_7_Deriv : prog := ([(1%positive, (Sqrt #2124694));
  (2%positive, (X * X));
  (3%positive, (#1 - $2));
  (4%positive, ($3 * $3));
  (5%positive, (Sqrt $3));
  (8%positive, ($2 * $2));
  (9%positive, ($8 * X));
  (10%positive, ($8 * $8));
  (13%positive, (Neg $3));
  (14%positive, ($2 * X));
  (18%positive, ($13 * $13));
  (22%positive, ($18 * $13));
  (26%positive, ($18 * $18));
  (29%positive, ($26 * $13));
  (32%positive, ($26 * $18))], (((((($1 * $5) * $4) * ((((((((#6914909469052359962646408069120000000 * $10) * $9) + (((#33710183661630254817901239336960000000 * $13) * $10) * $14)) + (((#51501669483046222638460226764800000000 * $18) * $10) * X)) + (((#30901001689827733583076136058880000000 * $22) * $8) * $14)) + ((#7374102675981618241415896104960000000 * $26) * $9)) + ((#614508556331801520117991342080000000 * $29) * $14)) + ((#11817472237150029233038295040000000 * $32) * X))) * X) / #702466993681509583506936692736000000) - ((((($1 * $5) * $4) * $3) * ((((((((#157314190420941189150205783572480000000 * $10) * $8) + (((#576818698210117693550754539765760000000 * $13) * $10) * $2)) + ((#648921035486382405244598857236480000000 * $18) * $10)) + (((#275299833236647081012860121251840000000 * $22) * $8) * $2)) + ((#43015598943226106408259393945600000000 * $26) * $8)) + ((#1985335335841204911150433566720000000 * $29) * $2)) + (#11817472237150029233038295040000000 * $32))) / #4917268955770567084548556849152000000))).
(** source/ass_leg_function.cc 13720-13751 *)
Definition P_20_8 : prog := ([(1%positive, (Sqrt #1144066));
  (2%positive, (X * X));
  (3%positive, (#1 - $2));
  (4%positive, ($3 * $3));
  (5%positive, ($4 * $4));
  (7%positive, ($2 * $2));
  (8%positive, ($7 * $7));
  (11%positive, (Neg $3));
  (15%positive, ($11 * $11));
  (22%positive, ($15 * $15))], ((($1 * $5) * ((((((((#157314190420941189150205783572480000000 * $8) * $7) + (((#576818698210117693550754539765760000000 * $11) * $8) * $2)) + ((#648921035486382405244598857236480000000 * $15) * $8)) + ((((#275299833236647081012860121251840000000 * $15) * $11) * $7) * $2)) + ((#43015598943226106408259393945600000000 * $22) * $7)) + (((#1985335335841204911150433566720000000 * $22) * $11) * $2)) + ((#11817472237150029233038295040000000 * $22) * $15))) / #68841765380787939183679795888128000000)).
(** source/ass_leg_function.cc 13756-13801 *)
Definition P_20_8_Deriv : prog := ([(1%positive, (Sqrt #1144066));
  (2%positive, (X * X));
  (3%positive, (#1 - $2));
  (4%positive, ($3 * $3));
  (7%positive, ($2 * $2));
  (8%positive, ($7 * $7));
  (11%positive, (Neg $3));
  (15%positive, ($11 * $11));
  (18%positive, ($15 * $11));
  (22%positive, ($15 * $15));
  (25%positive, ($22 * $11));
  (34%positive, ($4 * $4));
  (36%positive, ($2 * X))], (((((((Neg $1) * $4) * $3) * ((((((((#157314190420941189150205783572480000000 * $8) * $7) + (((#576818698210117693550754539765760000000 * $11) * $8) * $2)) + ((#648921035486382405244598857236480000000 * $15) * $8)) + (((#275299833236647081012860121251840000000 * $18) * $7) * $2)) + ((#43015598943226106408259393945600000000 * $22) * $7)) + ((#1985335335841204911150433566720000000 * $25) * $2)) + ((#11817472237150029233038295040000000 * $22) * $15))) * X) / #8605220672598492397959974486016000000) + ((($1 * $34) * (((((((#3041407681471529656903978482401280000000 * $8) * $36) + (((#8363871124046706556485940826603520000000 * $11) * $8) * X)) + (((#6843167283310941728033951585402880000000 * $15) * $7) * $36)) + (((#1995923790965691337343235879075840000000 * $18) * $7) * X)) + ((#191915749131316474744541911449600000000 * $22) * $36)) + ((#4112480338528210173097326673920000000 * $25) * X))) / #68841765380787939183679795888128000000))).
(** source/ass_leg_function.cc 13806-13840 *)
Definition P_20_9 : prog := ([(1%positive, (Sqrt #99533742));
  (2%positive, (X * X));
  (3%positive, (#1 - $2));
  (4%positive, ($3 * $3));
  (5%positive, ($4 * $4));
  (6%positive, (Sqrt $3));
  (9%positive, ($2 * X));
  (10%positive, ($2 * $2));
  (11%positive, ($10 * $10));
  (14%positive, (Neg $3));
  (18%positive, ($14 * $14));
  (26%positive, ($18 * $18))], (((((Neg $1) * $6) * $5) * (((((((#3041407681471529656903978482401280000000 * $11) * $9) + (((#8363871124046706556485940826603520000000 * $14) * $11) * X)) + (((#6843167283310941728033951585402880000000 * $18) * $10) * $9)) + ((((#1995923790965691337343235879075840000000 * $18) * $14) * $10) * X)) + ((#191915749131316474744541911449600000000 * $26) * $9)) + (((#4112480338528210173097326673920000000 * $26) * $14) * X))) / #11978467176257101417960284484534272000000)).
(** source/ass_leg_function.cc 13845-13891 *)
Definition P_20_9_Deriv : prog := ([(1%positive, (Sqrt #99533742));
  (2%positive, (X * X));
  (3%positive, (#1 - $2));
  (4%positive, ($3 * $3));
  (6%positive, (Sqrt $3));
  (9%positive, ($2 * X));
  (10%positive, ($2 * $2));
  (11%positive, ($10 * $10));
  (14%positive, (Neg $3));
  (18%positive, ($14 * $14));
  (22%positive, ($18 * $14));
  (26%positive, ($18 * $18));
  (29%positive, ($26 * $14));
  (36%positive, ($4 * $4))], ((((((($1 * $6) * $4) * $3) * (((((((#3041407681471529656903978482401280000000 * $11) * $9) + (((#8363871124046706556485940826603520000000 * $14) * $11) * X)) + (((#6843167283310941728033951585402880000000 * $18) * $10) * $9)) + (((#1995923790965691337343235879075840000000 * $22) * $10) * X)) + ((#191915749131316474744541911449600000000 * $9) * $26)) + ((#4112480338528210173097326673920000000 * $29) * X))) * X) / #1330940797361900157551142720503808000000) - (((($1 * $6) * $36) * (((((((#50183226744280239338915644959621120000000 * $11) * $2) + ((#102647509249664125920509273781043200000000 * $14) * $11)) + (((#59877713728970740120297076372275200000000 * $18) * $10) * $2)) + ((#11514944947878988484672514686976000000000 * $22) * $10)) + ((#616872050779231525964599001088000000000 * $26) * $2)) + (#4112480338528210173097326673920000000 * $29))) / #11978467176257101417960284484534272000000))).
(** source/ass_leg_function.cc 13896-13926 *)
Definition P_20_10 : prog := ([(1%positive, (Sqrt #7540435));
  (2%positive, (X * X));
  (3%positive, (#1 - $2));
  (4%positive, ($3 * $3));
  (5%positive, ($4 * $4));
  (8%positive, ($2 * $2));
  (9%positive, ($8 * $8));
  (12%positive, (Neg $3));
  (15%positive, ($12 * $12));
  (22%positive, ($15 * $15))], (((($1 * $5) * $3) * (((((((#50183226744280239338915644959621120000000 * $9) * $2) + ((#102647509249664125920509273781043200000000 * $12) * $9)) + (((#59877713728970740120297076372275200000000 * $15) * $8) * $2)) + (((#11514944947878988484672514686976000000000 * $15) * $12) * $8)) + ((#616872050779231525964599001088000000000 * $22) * $2)) + ((#4112480338528210173097326673920000000 * $22) * $12))) / #59892335881285507089801422422671360000000)).
(** source/ass_leg_function.cc 13931-13972 *)
Definition P_20_10_Deriv : prog := ([(1%positive, (Sqrt #7540435));
  (2%positive, (X * X));
  (3%positive, (#1 - $2));
  (4%positive, ($3 * $3));
  (5%positive, ($4 * $4));
  (7%positive, ($2 * $2));
  (8%positive, ($7 * $7));
  (11%positive, (Neg $3));
  (14%positive, ($11 * $11));
  (18%positive, ($14 * $11));
  (21%positive, ($14 * $14));
  (34%positive, ($2 * X))], ((((((Neg $1) * $5) * (((((((#50183226744280239338915644959621120000000 * $8) * $2) + ((#102647509249664125920509273781043200000000 * $11) * $8)) + (((#59877713728970740120297076372275200000000 * $14) * $7) * $2)) + ((#11514944947878988484672514686976000000000 * $18) * $7)) + ((#616872050779231525964599001088000000000 * $21) * $2)) + ((#4112480338528210173097326673920000000 * $21) * $11))) * X) / #5989233588128550708980142242267136000000) + (((($1 * $5) * $3) * ((((((#707127285942130645230174997158297600000000 * $8) * X) + (((#1060690928913195967845262495737446400000000 * $11) * $7) * $34)) + (((#428355952061098371629817546355507200000000 * $14) * $7) * X)) + ((#50994756197749806146406850756608000000000 * $18) * $34)) + ((#1274868904943745153660171268915200000000 * $21) * X))) / #59892335881285507089801422422671360000000))).
(** source/ass_leg_function.cc 13977-14010 *)
Definition P_20_11 : prog := ([(1%positive, (Sqrt #93501394));
  (2%positive, (X * X));
  (3%positive, (#1 - $2));
  (4%positive, ($3 * $3));
  (5%positive, ($4 * $4));
  (7%positive, (Sqrt $3));
  (10%positive, ($2 * $2));
  (11%positive, ($10 * $10));
  (14%positive, (Neg $3));
  (15%positive, ($2 * X));
  (19%positive, ($14 * $14));
  (26%positive, ($19 * $19))], ((((((Neg $1) * $7) * $5) * $3) * ((((((#707127285942130645230174997158297600000000 * $11) * X) + (((#1060690928913195967845262495737446400000000 * $14) * $10) * $15)) + (((#428355952061098371629817546355507200000000 * $19) * $10) * X)) + (((#50994756197749806146406850756608000000000 * $19) * $14) * $15)) + ((#1274868904943745153660171268915200000000 * $26) * X))) / #3713324824639701439567688190205624320000000)).
(** source/ass_leg_function.cc 14015-14057 *)
Definition P_20_11_Deriv : prog := ([(1%positive, (Sqrt #93501394));
  (2%positive, (X * X));
  (3%positive, (#1 - $2));
  (4%positive, ($3 * $3));
  (5%positive, ($4 * $4));
  (6%positive, (Sqrt $3));
  (9%positive, ($2 * $2));
  (10%positive, ($9 * $9));
  (13%positive, (Neg $3));
  (14%positive, ($2 * X));
  (18%positive, ($13 * $13));
  (22%positive, ($18 * $13));
  (25%positive, ($18 * $18))], (((((($1 * $6) * $5) * ((((((#707127285942130645230174997158297600000000 * $10) * X) + (((#1060690928913195967845262495737446400000000 * $13) * $9) * $14)) + (((#428355952061098371629817546355507200000000 * $18) * $9) * X)) + ((#50994756197749806146406850756608000000000 * $22) * $14)) + ((#1274868904943745153660171268915200000000 * $25) * X))) * X) / #337574984058154676324335290018693120000000) - ((((($1 * $6) * $5) * $3) * (((((#8485527431305567742762099965899571200000000 * $10) + (((#9138260310636765261436107655584153600000000 * $13) * $9) * $2)) + ((#2447748297491990695027528836317184000000000 * $18) * $9)) + ((#163183219832799379668501922421145600000000 * $22) * $2)) + (#1274868904943745153660171268915200000000 * $25))) / #3713324824639701439567688190205624320000000))).
(** source/ass_leg_function.cc 14062-14091 *)
Definition P_20_12 : prog := ([(1%positive, (Sqrt #46750697));
  (2%positive, (X * X));
  (3%positive, (#1 - $2));
  (4%positive, ($3 * $3));
  (5%positive, ($4 * $4));
  (8%positive, ($2 * $2));
  (9%positive, ($8 * $8));
  (11%positive, (Neg $3));
  (15%positive, ($11 * $11));
  (21%positive, ($15 * $15))], (((($1 * $5) * $4) * (((((#8485527431305567742762099965899571200000000 * $9) + (((#9138260310636765261436107655584153600000000 * $11) * $8) * $2)) + ((#2447748297491990695027528836317184000000000 * $15) * $8)) + (((#163183219832799379668501922421145600000000 * $15) * $11) * $2)) + (#1274868904943745153660171268915200000000 * $21))) / #44559897895676417274812258282467491840000000)).
(** source/ass_leg_function.cc 14096-14135 *)
Definition P_20_12_Deriv : prog := ([(1%positive, (Sqrt #46750697));
  (2%positive, (X * X));
  (3%positive, (#1 - $2));
  (4%positive, ($3 * $3));
  (5%positive, ($4 * $4));
  (8%positive, ($2 * $2));
  (9%positive, ($8 * $8));
  (11%positive, (Neg $3));
  (15%positive, ($11 * $11));
  (18%positive, ($15 * $11));
  (21%positive, ($15 * $15));
  (29%positive, ($2 * X))], (((((((Neg $1) * $5) * $3) * (((((#8485527431305567742762099965899571200000000 * $9) + (((#9138260310636765261436107655584153600000000 * $11) * $8) * $2)) + ((#2447748297491990695027528836317184000000000 * $15) * $8)) + ((#163183219832799379668501922421145600000000 * $18) * $2)) + (#1274868904943745153660171268915200000000 * $21))) * X) / #3713324824639701439567688190205624320000000) + (((($1 * $5) * $4) * (((((#86160740071718072464969015038364876800000000 * $8) * $29) + (((#64620555053788554348726761278773657600000000 * $11) * $8) * X)) + ((#10770092508964759058121126879795609600000000 * $29) * $15)) + ((#336565390905148720566285214993612800000000 * $18) * X))) / #44559897895676417274812258282467491840000000))).
(** source/ass_leg_function.cc 14140-14168 *)
Definition P_20_13 : prog := ([(1%positive, (Sqrt #3085546002));
  (2%positive, (X * X));
  (3%positive, (#1 - $2));
  (4%positive, ($3 * $3));
  (5%positive, ($4 * $4));
  (7%positive, (Sqrt $3));
  (10%positive, ($2 * X));
  (11%positive, ($2 * $2));
  (14%positive, (Neg $3));
  (18%positive, ($14 * $14))], ((((((Neg $1) * $7) * $5) * $4) * (((((#86160740071718072464969015038364876800000000 * $11) * $10) + (((#64620555053788554348726761278773657600000000 * $14) * $11) * X)) + ((#10770092508964759058121126879795609600000000 * $18) * $10)) + (((#336565390905148720566285214993612800000000 * $18) * $14) * X))) / #5881906522229287080275218093285708922880000000)).
(** source/ass_leg_function.cc 14173-14209 *)
Definition P_20_13_Deriv : prog := ([(1%positive, (Sqrt #3085546002));
  (2%positive, (X * X));
  (3%positive, (#1 - $2));
  (4%positive, ($3 * $3));
  (5%positive, ($4 * $4));
  (7%positive, (Sqrt $3));
  (10%positive, ($2 * X));
  (11%positive, ($2 * $2));
  (14%positive, (Neg $3));
  (18%positive, ($14 * $14));
  (21%positive, ($18 * $14))], ((((((($1 * $7) * $5) * $3) * (((((#86160740071718072464969015038364876800000000 * $11) * $10) + (((#64620555053788554348726761278773657600000000 * $14) * $11) * X)) + ((#10770092508964759058121126879795609600000000 * $18) * $10)) + ((#336565390905148720566285214993612800000000 * $21) * X))) * X) / #452454347863791313867324468714285301760000000) - ((((($1 * $7) * $5) * $4) * (((((#732366290609603615952236627826101452800000000 * $11) * $2) + ((#366183145304801807976118313913050726400000000 * $14) * $11)) + ((#34329669872325169497761091929348505600000000 * $18) * $2)) + (#336565390905148720566285214993612800000000 * $21))) / #5881906522229287080275218093285708922880000000))).
(** source/ass_leg_function.cc 14214-14238 *)
Definition P_20_14 : prog := ([(1%positive, (Sqrt #12964479));
  (2%positive, (X * X));
  (3%positive, (#1 - $2));
  (4%positive, ($3 * $3));
  (6%positive, ($4 * $4));
  (9%positive, ($2 * $2));
  (12%positive, (Neg $3));
  (15%positive, ($12 * $12))], ((((($1 * $6) * $4) * $3) * (((((#732366290609603615952236627826101452800000000 * $9) * $2) + ((#366183145304801807976118313913050726400000000 * $9) * $12)) + ((#34329669872325169497761091929348505600000000 * $15) * $2)) + ((#336565390905148720566285214993612800000000 * $12) * $15))) / #5881906522229287080275218093285708922880000000)).
(** source/ass_leg_function.cc 14243-14273 *)
Definition P_20_14_Deriv : prog := ([(1%positive, (Sqrt #12964479));
  (2%positive, (X * X));
  (3%positive, (#1 - $2));
  (4%positive, ($3 * $3));
  (5%positive, ($4 * $4));
  (8%positive, ($2 * $2));
  (11%positive, (Neg $3));
  (14%positive, ($11 * $11))], (((((((Neg $1) * $5) * $4) * (((((#732366290609603615952236627826101452800000000 * $8) * $2) + ((#366183145304801807976118313913050726400000000 * $11) * $8)) + ((#34329669872325169497761091929348505600000000 * $14) * $2)) + ((#336565390905148720566285214993612800000000 * $14) * $11))) * X) / #420136180159234791448229863806122065920000000) + ((((($1 * $5) * $4) * $3) * ((((#5126564034267225311665656394782710169600000000 * $8) * X) + (((#1602051260708507909895517623369596928000000000 * $11) * $2) * X)) + ((#70678732090081231318919895148658688000000000 * $14) * X))) / #5881906522229287080275218093285708922880000000))).
(** source/ass_leg_function.cc 14278-14303 *)
Definition P_20_15 : prog := ([(1%positive, (Sqrt #302504510));
  (2%positive, (X * X));
  (3%positive, (#1 - $2));
  (4%positive, ($3 * $3));
  (6%positive, ($4 * $4));
  (8%positive, (Sqrt $3));
  (11%positive, ($2 * $2));
  (14%positive, (Neg $3));
  (18%positive, ($14 * $14))], (((((((Neg $1) * $8) * $6) * $4) * $3) * ((((#5126564034267225311665656394782710169600000000 * $11) * X) + (((#1602051260708507909895517623369596928000000000 * $14) * $2) * X)) + ((#70678732090081231318919895148658688000000000 * $18) * X))) / #411733456556050095619265266529999624601600000000)).
(** source/ass_leg_function.cc 14308-14339 *)
Definition P_20_15_Deriv : prog := ([(1%positive, (Sqrt #302504510));
  (2%positive, (X * X));
  (3%positive, (#1 - $2));
  (4%positive, ($3 * $3));
  (5%positive, ($4 * $4));
  (7%positive, (Sqrt $3));
  (10%positive, ($2 * $2));
  (13%positive, (Neg $3));
  (17%positive, ($13 * $13))], ((((((($1 * $7) * $5) * $4) * ((((#5126564034267225311665656394782710169600000000 * $10) * X) + (((#1602051260708507909895517623369596928000000000 * $13) * $2) * X)) + ((#70678732090081231318919895148658688000000000 * $17) * X))) * X) / #27448897103736673041284351101999974973440000000) - (((((($1 * $7) * $5) * $4) * $3) * (((#28836922692753142378119317220652744704000000000 * $10) + ((#5088868710485848654962232450703425536000000000 * $13) * $2)) + (#70678732090081231318919895148658688000000000 * $17))) / #411733456556050095619265266529999624601600000000))).
(** source/ass_leg_function.cc 14344-14369 *)
Definition P_20_16 : prog := ([(1%positive, (Sqrt #60500902));
  (2%positive, (X * X));
  (3%positive, (#1 - $2));
  (4%positive, ($3 * $3));
  (5%positive, ($4 * $4));
  (6%positive, ($5 * $5));
  (8%positive, ($2 * $2));
  (10%positive, (Neg $3));
  (13%positive, ($10 * $10))], ((($1 * $6) * (((#28836922692753142378119317220652744704000000000 * $8) + ((#5088868710485848654962232450703425536000000000 * $10) * $2)) + (#70678732090081231318919895148658688000000000 * $13))) / #2470400739336300573715591599179997747609600000000)).
(** source/ass_leg_function.cc 14374-14403 *)
Definition P_20_16_Deriv : prog := ([(1%positive, (Sqrt #60500902));
  (2%positive, (X * X));
  (3%positive, (#1 - $2));
  (4%positive, ($3 * $3));
  (6%positive, ($4 * $4));
  (9%positive, ($2 * $2));
  (11%positive, (Neg $3));
  (14%positive, ($11 * $11));
  (20%positive, ($6 * $6))], ((((((((Neg $1) * $6) * $4) * $3) * (((#28836922692753142378119317220652744704000000000 * $9) + ((#5088868710485848654962232450703425536000000000 * $11) * $2)) + (#70678732090081231318919895148658688000000000 * $14))) * X) / #154400046208518785857224474948749859225600000000) + ((($1 * $20) * (((#125525428191984266822401733784017829888000000000 * $2) * X) + ((#10460452349332022235200144482001485824000000000 * $11) * X))) / #2470400739336300573715591599179997747609600000000))).
(** source/ass_leg_function.cc 14408-14428 *)
Definition P_20_17 : prog := ([(1%positive, (Sqrt #2238533374));
  (2%positive, (X * X));
  (3%positive, (#1 - $2));
  (4%positive, ($3 * $3));
  (5%positive, ($4 * $4));
  (6%positive, ($5 * $5));
  (7%positive, (Sqrt $3))], (((((Neg $1) * $7) * $6) * (((#125525428191984266822401733784017829888000000000 * $2) * X) - ((#10460452349332022235200144482001485824000000000 * $3) * X))) / #182809654710886242454953778339319833323110400000000)).
(** source/ass_leg_function.cc 14433-14457 *)
Definition P_20_17_Deriv : prog := ([(1%positive, (Sqrt #2238533374));
  (2%positive, (X * X));
  (3%positive, (#1 - $2));
  (4%positive, ($3 * $3));
  (6%positive, ($4 * $4));
  (8%positive, (Sqrt $3));
  (20%positive, ($6 * $6))], (((((((($1 * $8) * $6) * $4) * $3) * (((#125525428191984266822401733784017829888000000000 * $2) * X) - ((#10460452349332022235200144482001485824000000000 * $3) * X))) * X) / #10753509100640367203232575196430578430771200000000) - (((($1 * $8) * $20) * ((#407957641623948867172805634798057947136000000000 * $2) - #10460452349332022235200144482001485824000000000)) / #182809654710886242454953778339319833323110400000000))).
(** source/ass_leg_function.cc 14462-14480 *)
Definition P_20_18 : prog := ([(1%positive, (Sqrt #176726319));
  (2%positive, (X * X));
  (3%positive, (#1 - $2));
  (4%positive, ($3 * $3));
  (5%positive, ($4 * $4));
  (6%positive, ($5 * $5))], (((($1 * $6) * $3) * ((#407957641623948867172805634798057947136000000000 * $2) - #10460452349332022235200144482001485824000000000)) / #548428964132658727364861335017959499969331200000000)).
(** source/ass_leg_function.cc 14485-14504 *)
Definition P_20_18_Deriv : prog := ([(1%positive, (Sqrt #176726319));
  (2%positive, (X * X));
  (3%positive, (#1 - $2));
  (4%positive, ($3 * $3));
  (5%positive, ($4 * $4));
  (6%positive, ($5 * $5))], ((((((Neg $1) * $6) * ((#407957641623948867172805634798057947136000000000 * $2) - #10460452349332022235200144482001485824000000000)) * X) / #30468275785147707075825629723219972220518400000000) + (((((#195 / #131072) * $1) * $6) * $3) * X))).
(** source/ass_leg_function.cc 14509-14526 *)
Definition P_20_19 : prog := ([(1%positive, (Sqrt #1531628098));
  (2%positive, (X * X));
  (3%positive, (#1 - $2));
  (4%positive, ($3 * $3));
  (5%positive, ($4 * $4));
  (6%positive, ($5 * $5));
  (8%positive, (Sqrt $3))], (((((((Neg #15) / #262144) * $1) * $8) * $6) * $3) * X)).
(** source/ass_leg_function.cc 14531-14549 *)
Definition P_20_19_Deriv : prog := ([(1%positive, (Sqrt #1531628098));
  (2%positive, (X * X));
  (3%positive, (#1 - $2));
  (4%positive, ($3 * $3));
  (5%positive, ($4 * $4));
  (6%positive, ($5 * $5));
  (7%positive, (Sqrt $3))], ((((((#285 / #262144) * $1) * $7) * $6) * $2) - (((((#15 / #262144) * $1) * $7) * $6) * $3))).
(** source/ass_leg_function.cc 14554-14567 *)
Definition P_20_20 : prog := ([(1%positive, (Sqrt #3829070245));
  (2%positive, (X * X));
  (4%positive, (Pow2 (#1 - $2)));
  (5%positive, ($4 * $4));
  (6%positive, ($5 * $5))], ((((#3 / #524288) * $1) * $6) * $4)).
(** source/ass_leg_function.cc 14572-14587 *)
Definition P_20_20_Deriv : prog := ([(1%positive, (Sqrt #3829070245));
  (2%positive, (X * X));
  (3%positive, (#1 - $2));
  (4%positive, ($3 * $3));
  (5%positive, ($4 * $4));
  (6%positive, ($5 * $5))], ((((((Neg #15) / #131072) * $1) * $6) * $3) * X)).
(** the assignments to leg_pointers, source/ass_leg_function.cc 14-244 *)
Definition leg_pointers_assignments : list ((nat * nat) * prog) := [((0, 0), P_0_0);
  ((1, 0), P_1_0);
  ((1, 1), P_1_1);
  ((2, 0), P_2_0);
  ((2, 1), P_2_1);
  ((2, 2), P_2_2);
  ((3, 0), P_3_0);
  ((3, 1), P_3_1);
  ((3, 2), P_3_2);
  ((3, 3), P_3_3);
  ((4, 0), P_4_0);
  ((4, 1), P_4_1);
  ((4, 2), P_4_2);
  ((4, 3), P_4_3);
  ((4, 4), P_4_4);
  ((5, 0), P_5_0);
  ((5, 1), P_5_1);
  ((5, 2), P_5_2);
  ((5, 3), P_5_3);
  ((5, 4), P_5_4);
  ((5, 5), P_5_5);
  ((6, 0), P_6_0);
  ((6, 1), P_6_1);
  ((6, 2), P_6_2);
  ((6, 3), P_6_3);
  ((6, 4), P_6_4);
  ((6, 5), P_6_5);
  ((6, 6), P_6_6);
  ((7, 0), P_7_0);
  ((7, 1), P_7_1);
  ((7, 2), P_7_2);
  ((7, 3), P_7_3);
  ((7, 4), P_7_4);
  ((7, 5), P_7_5);
  ((7, 6), P_7_6);
  ((7, 7), P_7_7);
  ((8, 0), P_8_0);
  ((8, 1), P_8_1);
  ((8, 2), P_8_2);
  ((8, 3), P_8_3);
  ((8, 4), P_8_4);
  ((8, 5), P_8_5);
  ((8, 6), P_8_6);
  ((8, 7), P_8_7);
  ((8, 8), P_8_8);
  ((9, 0), P_9_0);
  ((9, 1), P_9_1);
  ((9, 2), P_9_2);
  ((9, 3), P_9_3);
  ((9, 4), P_9_4);
  ((9, 5), P_9_5);
  ((9, 6), P_9_6);
  ((9, 7), P_9_7);
  ((9, 8), P_9_8);
  ((9, 9), P_9_9);
  ((10, 0), P_10_0);
  ((10, 1), P_10_1);
  ((10, 2), P_10_2);
  ((10, 3), P_10_3);
  ((10, 4), P_10_4);
  ((10, 5), P_10_5);
  ((10, 6), P_10_6);
  ((10, 7), P_10_7);
  ((10, 8), P_10_8);
  ((10, 9), P_10_9);
  ((10, 10), P_10_10);
  ((11, 0), P_11_0);
  ((11, 1), P_11_1);
  ((11, 2), P_11_2);
  ((11, 3), P_11_3);
  ((11, 4), P_11_4);
  ((11, 5), P_11_5);
  ((11, 6), P_11_6);
  ((11, 7), P_11_7);
  ((11, 8), P_11_8);
  ((11, 9), P_11_9);
  ((11, 10), P_11_10);
  ((11, 11), P_11_11);
  ((12, 0), P_12_0);
  ((12, 1), P_12_1);
  ((12, 2), P_12_2);
  ((12, 3), P_12_3);
  ((12, 4), P_12_4);
  ((12, 5), P_12_5);
  ((12, 6), P_12_6);
  ((12, 7), P_12_7);
  ((12, 8), P_12_8);
  ((12, 9), P_12_9);
  ((12, 10), P_12_10);
  ((12, 11), P_12_11);
  ((12, 12), P_12_12);
  ((13, 0), P_13_0);
  ((13, 1), P_13_1);
  ((13, 2), P_13_2);
  ((13, 3), P_13_3);
  ((13, 4), P_13_4);
  ((13, 5), P_13_5);
  ((13, 6), P_13_6);
  ((13, 7), P_13_7);
  ((13, 8), P_13_8);
  ((13, 9), P_13_9);
  ((13, 10), P_13_10);
  ((13, 11), P_13_11);
  ((13, 12), P_13_12);
  ((13, 13), P_13_13);
  ((14, 0), P_14_0);
  ((14, 1), P_14_1);
  ((14, 2), P_14_2);
  ((14, 3), P_14_3);
  ((14, 4), P_14_4);
  ((14, 5), P_14_5);
  ((14, 6), P_14_6);
  ((14, 7), P_14_7);
  ((14, 8), P_14_8);
  ((14, 9), P_14_9);
  ((14, 10), P_14_10);
  ((14, 11), P_14_11);
  ((14, 12), P_14_12);
  ((14, 13), P_14_13);
  ((14, 14), P_14_14);
  ((15, 0), P_15_0);
  ((15, 1), P_15_1);
  ((15, 2), P_15_2);
  ((15, 3), P_15_3);
  ((15, 4), P_15_4);
  ((15, 5), P_15_5);
  ((15, 6), P_15_6);
  ((15, 7), P_15_7);
  ((15, 8), P_15_8);
  ((15, 9), P_15_9);
  ((15, 10), P_15_10);
  ((15, 11), P_15_11);
  ((15, 12), P_15_12);
  ((15, 13), P_15_13);
  ((15, 14), P_15_14);
  ((15, 15), P_15_15);
  ((16, 0), P_16_0);
  ((16, 1), P_16_1);
  ((16, 2), P_16_2);
  ((16, 3), P_16_3);
  ((16, 4), P_16_4);
  ((16, 5), P_16_5);
  ((16, 6), P_16_6);
  ((16, 7), P_16_7);
  ((16, 8), P_16_8);
  ((16, 9), P_16_9);
  ((16, 10), P_16_10);
  ((16, 11), P_16_11);
  ((16, 12), P_16_12);
  ((16, 13), P_16_13);
  ((16, 14), P_16_14);
  ((16, 15), P_16_15);
  ((16, 16), P_16_16);
  ((17, 0), P_17_0);
  ((17, 1), P_17_1);
  ((17, 2), P_17_2);
  ((17, 3), P_17_3);
  ((17, 4), P_17_4);
  ((17, 5), P_17_5);
  ((17, 6), P_17_6);
  ((17, 7), P_17_7);
  ((17, 8), P_17_8);
  ((17, 9), P_17_9);
  ((17, 10), P_17_10);
  ((17, 11), P_17_11);
  ((17, 12), P_17_12);
  ((17, 13), P_17_13);
  ((17, 14), P_17_14);
  ((17, 15), P_17_15);
  ((17, 16), P_17_16);
  ((17, 17), P_17_17);
  ((18, 0), P_18_0);
  ((18, 1), P_18_1);
  ((18, 2), P_18_2);
  ((18, 3), P_18_3);
  ((18, 4), P_18_4);
  ((18, 5), P_18_5);
  ((18, 6), P_18_6);
  ((18, 7), P_18_7);
  ((18, 8), P_18_8);
  ((18, 9), P_18_9);
  ((18, 10), P_18_10);
  ((18, 11), P_18_11);
  ((18, 12), P_18_12);
  ((18, 13), P_18_13);
  ((18, 14), P_18_14);
  ((18, 15), P_18_15);
  ((18, 16), P_18_16);
  ((18, 17), P_18_17);
  ((18, 18), P_18_18);
  ((19, 0), P_19_0);
  ((19, 1), P_19_1);
  ((19, 2), P_19_2);
  ((19, 3), P_19_3);
  ((19, 4), P_19_4);
  ((19, 5), P_19_5);
  ((19, 6), P_19_6);
  ((19, 7), P_19_7);
  ((19, 8), P_19_8);
  ((19, 9), P_19_9);
  ((19, 10), P_19_10);
  ((19, 11), P_19_11);
  ((19, 12), P_19_12);
  ((19, 13), P_19_13);
  ((19, 14), P_19_14);
  ((19, 15), P_19_15);
  ((19, 16), P_19_16);
  ((19, 17), P_19_17);
  ((19, 18), P_19_18);
  ((19, 19), P_19_19);
  ((20, 0), P_20_0);
  ((20, 1), P_20_1);
  ((20, 2), P_20_2);
  ((20, 3), P_20_3);
  ((20, 4), P_20_4);
  ((20, 5), P_20_5);
  ((20, 6), P_20_6);
  ((20, 7), P_20_7);
  ((20, 8), P_20_8);
  ((20, 9), P_20_9);
  ((20, 10), P_20_10);
  ((20, 11), P_20_11);
  ((20, 12), P_20_12);
  ((20, 13), P_20_13);
  ((20, 14), P_20_14);
  ((20, 15), P_20_15);
  ((20, 16), P_20_16);
  ((20, 17), P_20_17);
  ((20, 18), P_20_18);
  ((20, 19), P_20_19);
  ((20, 20), P_20_20)].
(** the assignments to leg_der_pointers, source/ass_leg_function.cc 252-482 *)
Definition leg_der_pointers_assignments : list ((nat * nat) * prog) := [((0, 0), P_0_0_Deriv);
  ((1, 0), P_1_0_Deriv);
  ((1, 1), P_1_1_Deriv);
  ((2, 0), P_2_0_Deriv);
  ((2, 1), P_2_1_Deriv);
  ((2, 2), P_2_2_Deriv);
  ((3, 0), P_3_0_Deriv);
  ((3, 1), P_3_1_Deriv);
  ((3, 2), P_3_2_Deriv);
  ((3, 3), P_3_3_Deriv);
  ((4, 0), P_4_0_Deriv);
  ((4, 1), P_4_1_Deriv);
  ((4, 2), P_4_2_Deriv);
  ((4, 3), P_4_3_Deriv);
  ((4, 4), P_4_4_Deriv);
  ((5, 0), P_5_0_Deriv);
  ((5, 1), P_5_1_Deriv);
  ((5, 2), P_5_2_Deriv);
  ((5, 3), P_5_3_Deriv);
  ((5, 4), P_5_4_Deriv);
  ((5, 5), P_5_5_Deriv);
  ((6, 0), P_6_0_Deriv);
  ((6, 1), P_6_1_Deriv);
  ((6, 2), P_6_2_Deriv);
  ((6, 3), P_6_3_Deriv);
  ((6, 4), P_6_4_Deriv);
  ((6, 5), P_6_5_Deriv);
  ((6, 6), P_6_6_Deriv);
  ((7, 0), P_7_0_Deriv);
  ((7, 1), P_7_1_Deriv);
  ((7, 2), P_7_2_Deriv);
  ((7, 3), P_7_3_Deriv);
  ((7, 4), P_7_4_Deriv);
  ((7, 5), P_7_5_Deriv);
  ((7, 6), P_7_6_Deriv);
  ((7, 7), P_7_7_Deriv);
  ((8, 0), P_8_0_Deriv);
  ((8, 1), P_8_1_Deriv);
  ((8, 2), P_8_2_Deriv);
  ((8, 3), P_8_3_Deriv);
  ((8, 4), P_8_4_Deriv);
  ((8, 5), P_8_5_Deriv);
  ((8, 6), P_8_6_Deriv);
  ((8, 7), P_8_7_Deriv);
  ((8, 8), P_8_8_Deriv);
  ((9, 0), P_9_0_Deriv);
  ((9, 1), P_9_1_Deriv);
  ((9, 2), P_9_2_Deriv);
  ((9, 3), P_9_3_Deriv);
  ((9, 4), P_9_4_Deriv);
  ((9, 5), P_9_5_Deriv);
  ((9, 6), P_9_6_Deriv);
  ((9, 7), P_9_7_Deriv);
  ((9, 8), P_9_8_Deriv);
  ((9, 9), P_9_9_Deriv);
  ((10, 0), P_10_0_Deriv);
  ((10, 1), P_10_1_Deriv);
  ((10, 2), P_10_2_Deriv);
  ((10, 3), P_10_3_Deriv);
  ((10, 4), P_10_4_Deriv);
  ((10, 5), P_10_5_Deriv);
  ((10, 6), P_10_6_Deriv);
  ((10, 7), P_10_7_Deriv);
  ((10, 8), P_10_8_Deriv);
  ((10, 9), P_10_9_Deriv);
  ((10, 10), P_10_10_Deriv);
  ((11, 0), P_11_0_Deriv);
  ((11, 1), P_11_1_Deriv);
  ((11, 2), P_11_2_Deriv);
  ((11, 3), P_11_3_Deriv);
  ((11, 4), P_11_4_Deriv);
  ((11, 5), P_11_5_Deriv);
  ((11, 6), P_11_6_Deriv);
  ((11, 7), P_11_7_Deriv);
  ((11, 8), P_11_8_Deriv);
  ((11, 9), P_11_9_Deriv);
  ((11, 10), P_11_10_Deriv);
  ((11, 11), P_11_11_Deriv);
  ((12, 0), P_12_0_Deriv);
  ((12, 1), P_12_1_Deriv);
  ((12, 2), P_12_2_Deriv);
  ((12, 3), P_12_3_Deriv);
  ((12, 4), P_12_4_Deriv);
  ((12, 5), P_12_5_Deriv);
  ((12, 6), P_12_6_Deriv);
  ((12, 7), P_12_7_Deriv);
  ((12, 8), P_12_8_Deriv);
  ((12, 9), P_12_9_Deriv);
  ((12, 10), P_12_10_Deriv);
  ((12, 11), P_12_11_Deriv);
  ((12, 12), P_12_12_Deriv);
  ((13, 0), P_13_0_Deriv);
  ((13, 1), P_13_1_Deriv);
  ((13, 2), P_13_2_Deriv);
  ((13, 3), P_13_3_Deriv);
  ((13, 4), P_13_4_Deriv);
  ((13, 5), P_13_5_Deriv);
  ((13, 6), P_13_6_Deriv);
  ((13, 7), P_13_7_Deriv);
  ((13, 8), P_13_8_Deriv);
  ((13, 9), P_13_9_Deriv);
  ((13, 10), P_13_10_Deriv);
  ((13, 11), P_13_11_Deriv);
  ((13, 12), P_13_12_Deriv);
  ((13, 13), P_13_13_Deriv);
  ((14, 0), P_14_0_Deriv);
  ((14, 1), P_14_1_Deriv);
  ((14, 2), P_14_2_Deriv);
  ((14, 3), P_14_3_Deriv);
  ((14, 4), P_14_4_Deriv);
  ((14, 5), P_14_5_Deriv);
  ((14, 6), P_14_6_Deriv);
  ((14, 7), P_14_7_Deriv);
  ((14, 8), P_14_8_Deriv);
  ((14, 9), P_14_9_Deriv);
  ((14, 10), P_14_10_Deriv);
  ((14, 11), P_14_11_Deriv);
  ((14, 12), P_14_12_Deriv);
  ((14, 13), P_14_13_Deriv);
  ((14, 14), P_14_14_Deriv);
  ((15, 0), P_15_0_Deriv);
  ((15, 1), P_15_1_Deriv);
  ((15, 2), P_15_2_Deriv);
  ((15, 3), P_15_3_Deriv);
  ((15, 4), P_15_4_Deriv);
  ((15, 5), P_15_5_Deriv);
  ((15, 6), P_15_6_Deriv);
  ((15, 7), P_15_7_Deriv);
  ((15, 8), P_15_8_Deriv);
  ((15, 9), P_15_9_Deriv);
  ((15, 10), P_15_10_Deriv);
  ((15, 11), P_15_11_Deriv);
  ((15, 12), P_15_12_Deriv);
  ((15, 13), P_15_13_Deriv);
  ((15, 14), P_15_14_Deriv);
  ((15, 15), P_15_15_Deriv);
  ((16, 0), P_16_0_Deriv);
  ((16, 1), P_16_1_Deriv);
  ((16, 2), P_16_2_Deriv);
  ((16, 3), P_16_3_Deriv);
  ((16, 4), P_16_4_Deriv);
  ((16, 5), P_16_5_Deriv);
  ((16, 6), P_16_6_Deriv);
  ((16, 7), P_16_7_Deriv);
  ((16, 8), P_16_8_Deriv);
  ((16, 9), P_16_9_Deriv);
  ((16, 10), P_16_10_Deriv);
  ((16, 11), P_16_11_Deriv);
  ((16, 12), P_16_12_Deriv);
  ((16, 13), P_16_13_Deriv);
  ((16, 14), P_16_14_Deriv);
  ((16, 15), P_16_15_Deriv);
  ((16, 16), P_16_16_Deriv);
  ((17, 0), P_17_0_Deriv);
  ((17, 1), P_17_1_Deriv);
  ((17, 2), P_17_2_Deriv);
  ((17, 3), P_17_3_Deriv);
  ((17, 4), P_17_4_Deriv);
  ((17, 5), P_17_5_Deriv);
  ((17, 6), P_17_6_Deriv);
  ((17, 7), P_17_7_Deriv);
  ((17, 8), P_17_8_Deriv);
  ((17, 9), P_17_9_Deriv);
  ((17, 10), P_17_10_Deriv);
  ((17, 11), P_17_11_Deriv);
  ((17, 12), P_17_12_Deriv);
  ((17, 13), P_17_13_Deriv);
  ((17, 14), P_17_14_Deriv);
  ((17, 15), P_17_15_Deriv);
  ((17, 16), P_17_16_Deriv);
  ((17, 17), P_17_17_Deriv);
  ((18, 0), P_18_0_Deriv);
  ((18, 1), P_18_1_Deriv);
  ((18, 2), P_18_2_Deriv);
  ((18, 3), P_18_3_Deriv);
  ((18, 4), P_18_4_Deriv);
  ((18, 5), P_18_5_Deriv);
  ((18, 6), P_18_6_Deriv);
  ((18, 7), P_18_7_Deriv);
  ((18, 8), P_18_8_Deriv);
  ((18, 9), P_18_9_Deriv);
  ((18, 10), P_18_10_Deriv);
  ((18, 11), P_18_11_Deriv);
  ((18, 12), P_18_12_Deriv);
  ((18, 13), P_18_13_Deriv);
  ((18, 14), P_18_14_Deriv);
  ((18, 15), P_18_15_Deriv);
  ((18, 16), P_18_16_Deriv);
  ((18, 17), P_18_17_Deriv);
  ((18, 18), P_18_18_Deriv);
  ((19, 0), P_19_0_Deriv);
  ((19, 1), P_19_1_Deriv);
  ((19, 2), P_19_2_Deriv);
  ((19, 3), P_19_3_Deriv);
  ((19, 4), P_19_4_Deriv);
  ((19, 5), P_19_5_Deriv);
  ((19, 6), P_19_6_Deriv);
  ((19, 7), P_19_7_Deriv);
  ((19, 8), P_19_8_Deriv);
  ((19, 9), P_19_9_Deriv);
  ((19, 10), P_19_10_Deriv);
  ((19, 11), P_19_11_Deriv);
  ((19, 12), P_19_12_Deriv);
  ((19, 13), P_19_13_Deriv);
  ((19, 14), P_19_14_Deriv);
  ((19, 15), P_19_15_Deriv);
  ((19, 16), P_19_16_Deriv);
  ((19, 17), P_19_17_Deriv);
  ((19, 18), P_19_18_Deriv);
  ((19, 19), P_19_19_Deriv);
  ((20, 0), P_20_0_Deriv);
  ((20, 1), P_20_1_Deriv);
  ((20, 2), P_20_2_Deriv);
  ((20, 3), P_20_3_Deriv);
  ((20, 4), P_20_4_Deriv);
  ((20, 5), P_20_5_Deriv);
  ((20, 6), P_20_6_Deriv);
  ((20, 7), P_20_7_Deriv);
  ((20, 8), P_20_8_Deriv);
  ((20, 9), P_20_9_Deriv);
  ((20, 10), P_20_10_Deriv);
  ((20, 11), P_20_11_Deriv);
  ((20, 12), P_20_12_Deriv);
  ((20, 13), P_20_13_Deriv);
  ((20, 14), P_20_14_Deriv);
  ((20, 15), P_20_15_Deriv);
  ((20, 16), P_20_16_Deriv);
  ((20, 17), P_20_17_Deriv);
  ((20, 18), P_20_18_Deriv);
  ((20, 19), P_20_19_Deriv);
  ((20, 20), P_20_20_Deriv)].
