(* Model of /repo/cordic.hh *)
From Coq Require Import ZArith List.
From Verif Require Export Model.Base.
Import ListNotations.
Open Scope Z_scope.

(** cordic.hh:27-42  the decimal digits of the literals atan(2^-i)/pi *)
Definition cordic_digits : list Z := [
  2500000000000000000000000000000000000000000000000000000000000000000;
  1475836176504332741754010762247405259511345238869178945999223128627;
  0779791303773693254605128897731301351165246187810070349907614355625;
  0395834241605655420108516713400380263836230512014484657091255843474;
  0198685243055408390593598828581045592395809198311117360197658161834;
  0099439478235892739286124987559949706675355099351305855673205197301;
  0049731872789504128535623156837751800756022858309425918885230220925;
  0024867453936697392949686323634656804594951905170750175789691381407;
  0012433916687141004173529641246144055092826557912518235730426698546;
  0006216982059233715959748655390818054931061630817558971376245115402;
  0003108493994100203787468007466901774427133407538770647518959302312;
  0001554247367611315255509951068712763232641191255978216125229683284;
  0000777123730125834146038201984686638046103667177724187710747868218;
  0000388561870852939914306938515989779351910341528053916759630446151;
  0000194280936150222836580154085598088977275755448309525831225639103;
  0000097140468165580528976715963565423783044063210250363625335628380].
(** int(0.5 + FAC*literal), computed without the rounding of long double *)
Definition cordic_lut (FAC i : Z) : outcome Z := d <- get cordic_digits i ;; Ok ((5 * 10 ^ 66 + FAC * d) / 10 ^ 67).

(** conversion of an int to the signed type TYPE of the given number of bits *)
Definition to_type (BITS v : Z) : Z := (v + 2 ^ (BITS - 1)) mod 2 ^ BITS - 2 ^ (BITS - 1).
(** v << 1 for an int; negative values are doubled like positive ones (undefined in strict C++17) *)
Definition shl_int (v : Z) : outcome Z := ichk (2 * v).

(** cordic.hh:51-65 *)
Definition cordic_step (FAC i : Z) (s : Z * (Z * Z)) : outcome (Z * (Z * Z)) :=
  let '(angle, (real, imag)) := s in
  t <- cordic_lut FAC i ;;
  if imag <? 0 then
    angle <- ichk (angle - t) ;; re <- ichk (real - Z.shiftr imag i) ;; im <- ichk (imag + Z.shiftr real i) ;; Ok (angle, (re, im))
  else
    angle <- ichk (angle + t) ;; re <- ichk (real + Z.shiftr imag i) ;; im <- ichk (imag - Z.shiftr real i) ;; Ok (angle, (re, im)).
(** cordic.hh:44-69  CORDIC<TYPE>::atan2(y, x), BYTES = sizeof(TYPE) *)
Definition cordic_atan2 (BYTES y x : Z) : outcome Z :=
  let BITS := 8 * BYTES in
  let FAC := BYTES * 2 ^ BITS in
  real <- shl_int x ;; imag <- shl_int y ;;
  real <- (if x <? 0 then ichk (- real) else Ok real) ;;
  '(angle, _) <- for_loop (Z.to_nat BITS) 0 (cordic_step FAC) (0, (real, imag)) ;;
  angle <- (if x <? 0 then ichk (FAC - angle) else Ok angle) ;;
  Ok (to_type BITS (Z.shiftr angle BYTES)).
