(** Model of the multi-objective test problems in problems/: the ZDT, DTLZ and MAF families,
    Schaffer N.1 and Fonseca-Fleming.  Each class offers Evaluate(), all objectives of a point,
    and GetObjectives(), the objectives one by one; the optimizers are given the latter.
    Values are real numbers, decimal literals are exact.  Evaluate() of DTLZ and MAF works on a
    matrix, every row operation on each column by itself: one column is modelled.  The objective
    structs read coords[i] and g(coords)[0], which belong to the first column.
    arma::datum::pi is PI; pow(a, k) for a natural k is a^k, pow(a, 0.25) is sqrt (sqrt a), and
    pow(a, 0.1) is [pow01] (for a < 0 it is NaN in the code). *)
From Coq Require Import List Arith Reals ZArith.
From Verif.Base Require Import Num Instances.
From Verif.Model Require Import Problems DasDennis.
Import ListNotations.
Local Open Scope R_scope.

Definition pow01 (a : R) : R := if Rle_dec a 0 then 0 else Rpower a (1/10).
(* accu over coords(span(a, a + k - 1)) of t(coords(i)), and the loops that add rows a .. a + k - 1 *)
Definition accu (t : R -> R) (a k : nat) (x : list R) : R := fold_left (fun s i => s + t (co x i)) (seq a k) 0.
(* arma::linspace(a, b, n), entry i: with one point it is b *)
Definition linspace (a b : R) (n i : nat) : R :=
  if (n =? 1)%nat then b else if (i =? n - 1)%nat then b else a + INR i * ((b - a) / INR (n - 1)).

(** ** ZDT *)
(* zdt1_function.hpp 73-86 and zdt1_function.hpp 102-125 *)
Definition zdt1_g (x : list R) : R := 1 + 9 * accu (fun a => a) 1 29 x / 29.
Definition zdt1_evaluate (x : list R) : list R :=
  let f1 := co x 0 in let g := zdt1_g x in [f1; g * (1 - sqrt (f1 / g))].
Definition zdt1_objective (k : nat) (x : list R) : R :=
  match k with O => co x 0 | _ => let g := zdt1_g x in g * (1 - sqrt (co x 0 / g)) end.
(* 140-149 *)
Definition zdt1_front (n : nat) : list (list R) :=
  map (fun i => let x := linspace 0 1 n i in [x; 1 - sqrt x]) (seq 0 n).

(* zdt2_function.hpp 74-87, 103-126, 141-150 *)
Definition zdt2_evaluate (x : list R) : list R :=
  let f1 := co x 0 in let g := zdt1_g x in [f1; g * (1 - (f1 / g)^2)].
Definition zdt2_objective (k : nat) (x : list R) : R :=
  match k with O => co x 0 | _ => let g := zdt1_g x in g * (1 - (co x 0 / g)^2) end.
Definition zdt2_front (n : nat) : list (list R) :=
  map (fun i => let x := linspace 0 1 n i in [x; 1 - x^2]) (seq 0 n).

(* zdt3_function.hpp 81-94, 110-134, 148-181 *)
Definition zdt3_evaluate (x : list R) : list R :=
  let f1 := co x 0 in let g := zdt1_g x in
  [f1; g * (1 - sqrt (f1 / g) - f1 / g * sin (10 * PI * co x 0))].
Definition zdt3_objective (k : nat) (x : list R) : R :=
  match k with
  | O => co x 0
  | _ => let g := zdt1_g x in g * (1 - sqrt (co x 0 / g) - co x 0 / g * sin (10 * PI * co x 0))
  end.
Definition zdt3_regions : list (R * R) :=
  [(0, 830015349 / 10^10); (182228780 / 10^9, 2577623634 / 10^10); (4093136748 / 10^10, 4538821041 / 10^10);
   (6183967944 / 10^10, 6525117038 / 10^10); (8233317983 / 10^10, 8518328654 / 10^10)].
Definition zdt3_front (n : nat) : list (list R) :=
  flat_map (fun ab => map (fun i => let x := linspace (fst ab) (snd ab) (n / 5) i in
                                    [x; 1 - sqrt x - x * sin (10 * PI * x)]) (seq 0 (n / 5))) zdt3_regions.

(* zdt4_function.hpp 75-89, 105-130, 144-153 *)
Definition zdt4_g (x : list R) : R := 1 + 10 * 9 + accu (fun a => a^2 - 10 * cos (4 * PI * a)) 1 9 x.
Definition zdt4_evaluate (x : list R) : list R :=
  let f1 := co x 0 in let g := zdt4_g x in [f1; g * (1 - sqrt (f1 / g))].
Definition zdt4_objective (k : nat) (x : list R) : R :=
  match k with O => co x 0 | _ => let g := zdt4_g x in g * (1 - sqrt (co x 0 / g)) end.
Definition zdt4_front := zdt1_front.

(* zdt6_function.hpp 75-90, 106-133, 146-155 *)
Definition zdt6_f1 (x : list R) : R := 1 - exp (-4 * co x 0) * sin (6 * PI * co x 0)^6.
Definition zdt6_g (x : list R) : R := 1 + 9 * sqrt (sqrt (accu (fun a => a) 1 9 x / 9)).
Definition zdt6_evaluate (x : list R) : list R :=
  let f1 := zdt6_f1 x in let g := zdt6_g x in [f1; g * (1 - (f1 / g)^2)].
Definition zdt6_objective (k : nat) (x : list R) : R :=
  match k with O => zdt6_f1 x | _ => let g := zdt6_g x in g * (1 - (zdt6_f1 x / g)^2) end.
Definition zdt6_front (n : nat) : list (list R) :=
  map (fun i => let x := linspace (2807753191 / 10^10) 1 n i in [x; 1 - x^2]) (seq 0 n).

(** ** DTLZ and MAF: numObjectives = 3 *)
(* for (i = 0; i < 2; i++) { objectives.row(i) = value % up(i); value = value % down(i); }
   objectives.row(2) = value *)
Fixpoint rungs (up down : nat -> R) (i k : nat) (value : R) : list R :=
  match k with
  | O => [value]
  | S k => value * up i :: rungs up down (S i) k (value * down i)
  end.
(* for (i = 0; i < stop; i++) value = value * down(i) *)
Definition downs (down : nat -> R) (stop : nat) (value : R) : R :=
  fold_left (fun v i => v * down i) (seq 0 stop) value.

(* dtlz1_function.hpp 114-131, dtlz3_function.hpp 112-129: numVariables = 7, k = 5 *)
Definition rastrigin_g (k : nat) (x : list R) : R :=
  100 * (INR k + accu (fun a => (a - 5/10)^2 - cos (20 * PI * (a - 5/10))) 2 k x).
(* dtlz2_function.hpp 111-125, the same in dtlz4 (114-128), dtlz5 (111-125) *)
Definition sphere_g (k : nat) (x : list R) : R := accu (fun a => (a - 5/10)^2) 2 k x.

(* dtlz1_function.hpp 138-153 and 168-190 *)
Definition dtlz1_evaluate (x : list R) : list R :=
  rungs (fun i => 1 - co x i) (co x) 0 2 (5/10 * (1 + rastrigin_g 5 x)).
Definition dtlz1_objective (stop : nat) (x : list R) : R :=
  let value := downs (co x) stop (5/10) in
  let value := if (stop =? 2)%nat then value * co x stop else value * (1 - co x stop) in
  value * (1 + rastrigin_g 5 x).

(* dtlz2_function.hpp 133-150 and 164-187 *)
Definition quarter (x : list R) (i : nat) : R := co x i * PI * (5/10).
Definition dtlz2_evaluate (x : list R) : list R :=
  rungs (fun i => sin (quarter x i)) (fun i => cos (quarter x i)) 0 2 (5/10 * (1 + sphere_g 5 x)).
Definition dtlz2_objective (stop : nat) (x : list R) : R :=
  let value := downs (fun i => cos (quarter x i)) stop 1 in
  let value := if (stop =? 2)%nat then value * cos (quarter x stop) else value * sin (quarter x stop) in
  value * (1 + sphere_g 5 x).

(* dtlz3_function.hpp 136-153 and 167-190 *)
Definition dtlz3_evaluate (x : list R) : list R :=
  rungs (fun i => sin (quarter x i)) (fun i => cos (quarter x i)) 0 2 (5/10 * (1 + rastrigin_g 5 x)).
Definition dtlz3_objective (stop : nat) (x : list R) : R :=
  let value := downs (fun i => cos (quarter x i)) stop 1 in
  let value := if (stop =? 2)%nat then value * cos (quarter x stop) else value * sin (quarter x stop) in
  value * (1 + rastrigin_g 5 x).

(* dtlz4_function.hpp 136-153 and 167-190 *)
Definition powered (alpha : nat) (x : list R) (i : nat) : R := co x i ^ alpha * PI * (5/10).
Definition dtlz4_evaluate (alpha : nat) (x : list R) : list R :=
  rungs (fun i => sin (powered alpha x i)) (fun i => cos (powered alpha x i)) 0 2 (5/10 * (1 + sphere_g 5 x)).
Definition dtlz4_objective (alpha stop : nat) (x : list R) : R :=
  let value := downs (fun i => cos (powered alpha x i)) stop 1 in
  let value := if (stop =? 2)%nat then value * cos (powered alpha x stop) else value * sin (powered alpha x stop) in
  value * (1 + sphere_g 5 x).

(* dtlz5_function.hpp 133-152 and 166-191; dtlz6_function.hpp has the same text but another g (111-125) *)
Definition theta (G : R) (x : list R) (i : nat) : R := 5/10 * (1 + 2 * co x i * G) / (1 + G).
Definition dtlz56_evaluate (G : R) (x : list R) : list R :=
  rungs (fun i => sin (theta G x i * PI * (5/10))) (fun i => cos (theta G x i * PI * (5/10))) 0 2 (5/10 * (1 + G)).
Definition dtlz56_objective (G : R) (stop : nat) (x : list R) : R :=
  let value := downs (fun i => cos (theta G x i * PI * (5/10))) stop 1 in
  let value := if (stop =? 2)%nat then value * cos (theta G x stop * PI * (5/10))
               else value * sin (theta G x stop * PI * (5/10)) in
  value * (1 + G).
Definition dtlz5_evaluate (x : list R) : list R := dtlz56_evaluate (sphere_g 5 x) x.
Definition dtlz5_objective (stop : nat) (x : list R) : R := dtlz56_objective (sphere_g 5 x) stop x.
Definition dtlz6_g (x : list R) : R := accu pow01 2 5 x.
Definition dtlz6_evaluate (x : list R) : list R := dtlz56_evaluate (dtlz6_g x) x.
Definition dtlz6_objective (stop : nat) (x : list R) : R := dtlz56_objective (dtlz6_g x) stop x.

(* dtlz7_function.hpp 111-124, 131-147, 154-166 and 180-190 *)
Definition dtlz7_g (x : list R) : R := 9 / 5 * accu (fun a => a) 2 5 x + 1.
Definition dtlz7_h (x : list R) (G : R) : R :=
  fold_left (fun s i => s - co x i * (1 + cos (PI * 3 * co x i)) / (1 + G)) (seq 0 2) 3.
Definition dtlz7_evaluate (x : list R) : list R :=
  let G := dtlz7_g x in [co x 0; co x 1; (1 + G) * dtlz7_h x G].
Definition dtlz7_objective (stop : nat) (x : list R) : R :=
  if (stop =? 2)%nat then (1 + dtlz7_g x) * dtlz7_h x (dtlz7_g x) else co x stop.

(* maf1_function.hpp 97-110, 118-133 and 148-169: numVariables = 12, ten distance variables *)
Definition maf1_evaluate (x : list R) : list R :=
  map (fun share => (1 - share) * (1 + sphere_g 10 x)) (rungs (fun i => 1 - co x i) (co x) 0 2 1).
Definition maf1_objective (stop : nat) (x : list R) : R :=
  if (stop =? 0)%nat then co x 0 * (1 + sphere_g 10 x)
  else
    let value := downs (co x) stop 1 in
    let value := if (stop =? 2)%nat then value else value * (1 - co x stop) in
    (1 - value) * (1 + sphere_g 10 x).

(* maf2_function.hpp 103-123: entry i of g.  The loop over j runs while j < numVariables - 1 + (i + 1) c
   and j < numObjectives, and adds the term of coordinate i each time. *)
Fixpoint maf2_loop (fuel i j : nat) (acc : R) (x : list R) : R :=
  match fuel with
  | O => acc
  | S fuel =>
      if ((j <? 11 + (i + 1) * 3) && (j <? 3))%nat%bool
      then maf2_loop fuel i (S j) (acc + (co x i - 5/10)^2 * (25/100)) x
      else acc
  end.
Definition maf2_g (i : nat) (x : list R) : R := maf2_loop 24 i (2 + i * 3) 0 x.
(* 131-150 and 165-185 *)
Definition maf2_theta (x : list R) (i : nat) : R := PI * (5/10) * (co x i / 2 + 25/100).
Definition maf2_evaluate (x : list R) : list R :=
  let value i := downs (fun i => cos (maf2_theta x i)) i 1 in
  [value 0%nat * sin (maf2_theta x 0) * (1 + maf2_g 2 x);
   value 1%nat * sin (maf2_theta x 1) * (1 + maf2_g 1 x);
   value 2%nat * (1 + maf2_g 0 x)].
Definition maf2_objective (stop : nat) (x : list R) : R :=
  let value := downs (fun i => cos (maf2_theta x i)) stop 1 in
  let value := if (stop =? 2)%nat then value else value * sin (maf2_theta x stop) in
  value * (1 + maf2_g (2 - stop) x).

(* maf3_function.hpp 101-117, 125-141 and 156-177 *)
Definition maf3_evaluate (x : list R) : list R :=
  let G := rastrigin_g 10 x in
  let value i := downs (fun i => cos (quarter x i)) i (1 + G) in
  [value 0%nat ^ 2 * sin (quarter x 0) ^ 2; value 1%nat ^ 4 * sin (quarter x 1) ^ 4; value 2%nat ^ 4].
Definition maf3_objective (stop : nat) (x : list R) : R :=
  let value := downs (fun i => cos (quarter x i)) stop 1 in
  let value := if (stop =? 2)%nat then value else value * sin (quarter x stop) in
  let value := value * (1 + rastrigin_g 10 x) in
  if (stop =? 0)%nat then value ^ 2 else value ^ 4.

(* maf4_function.hpp 116-132, 140-158 and 173-192.  The member a is a double; GetA() (99-100) returns it as
   a size_t, [trunc a], and that is what the objectives use. *)
Definition maf4_evaluate (a : R) (x : list R) : list R :=
  let G := rastrigin_g 10 x in
  let value i := downs (fun i => cos (quarter x i)) i 1 in
  [(1 - value 0%nat * sin (quarter x 0)) * (1 + G) * a ^ 3;
   (1 - value 1%nat * sin (quarter x 1)) * (1 + G) * a ^ 2;
   (1 - value 2%nat) * (1 + G) * a ^ 1].
Definition trunc (a : R) : R := IZR (Int_part a).                       (* for a >= 0 *)
Definition maf4_objective (a : R) (stop : nat) (x : list R) : R :=
  let value := downs (fun i => cos (quarter x i)) stop 1 in
  let value := if (stop =? 2)%nat then value else value * sin (quarter x stop) in
  trunc a ^ (3 - stop) * (1 - value) * (1 + rastrigin_g 10 x).

(* maf5_function.hpp 132-146, 154-171 and 186-207.  The member a is a size_t (64), the constructor and SetA()
   take a double: [a] is the member. *)
Definition maf5_evaluate (alpha a : nat) (x : list R) : list R :=
  let value i := downs (fun i => cos (powered alpha x i)) i (1 + sphere_g 10 x) in
  [INR a ^ 1 * value 0%nat ^ 4 * sin (powered alpha x 0) ^ 4;
   INR a ^ 2 * value 1%nat ^ 4 * sin (powered alpha x 1) ^ 4;
   value 2%nat ^ 4 * INR a ^ 3].
Definition maf5_objective (alpha a stop : nat) (x : list R) : R :=
  let value := downs (fun i => cos (powered alpha x i)) stop 1 in
  let value := if (stop =? 2)%nat then value else value * sin (powered alpha x stop) in
  let value := value * (1 + sphere_g 10 x) in
  value ^ 4 * INR a ^ (stop + 1).
(* 76-82, 115-116: what the member becomes *)
Definition maf5_a (a : R) : nat := Z.to_nat (Int_part a).

(* maf6_function.hpp 117-131, 139-164 and 179-215 *)
Definition maf6_theta (I : nat) (G : R) (x : list R) (i : nat) : R :=
  if (i <? I)%nat then co x i * PI * (5/10) else 25/100 * (1 + 2 * co x i * G) / (1 + G).
Definition maf6_evaluate (I : nat) (x : list R) : list R :=
  let G := sphere_g 10 x in
  rungs (fun i => sin (maf6_theta I G x i)) (fun i => cos (maf6_theta I G x i)) 0 2 (1 + 100 * G).
Definition maf6_objective (I stop : nat) (x : list R) : R :=
  let G := sphere_g 10 x in
  let value := downs (fun i => cos (maf6_theta I G x i)) stop 1 in
  let value := if (stop =? 2)%nat then value else value * sin (maf6_theta I G x stop) in
  value * (1 + 100 * G).

(** ** GetReferenceFront of the DTLZ classes *)
Local Notation RN := (RNum 0).
(* dtlz1_function.hpp 203-207: 0.5 * Uniform().Generate(3, n, 0); the columns *)
Definition dtlz1_front (fuel n : nat) (nan : R) : gen (list (list R)) :=
  match generate (N := RN) fuel 3 n nan 0 with
  | GRet ws => GRet (map (map (Rmult (5/10))) ws)
  | GThrow => GThrow
  | GMore => GMore
  end.
(* dtlz2_function.hpp 199-207 (dtlz3: 202-210, dtlz4: 202-210).  normalise(refDirs, 2, 1) divides every row by
   its norm (left alone if that is zero) and has as many columns as refDirs; it is assigned to a column vector,
   which throws unless there is exactly one column.  [refDirs / A] divides entry by entry. *)
Definition row_norm (ws : list (list R)) (i : nat) : R := sqrt (fold_left (fun s w => s + co w i * co w i) ws 0).
Definition normalise_rows (ws : list (list R)) : list (list R) :=
  map (fun w => map (fun i => if Req_EM_T (row_norm ws i) 0 then co w i else co w i / row_norm ws i) (seq 0 3)) ws.
Definition dtlz2_front (fuel n : nat) (nan : R) : gen (list (list R)) :=
  match generate (N := RN) fuel 3 n nan 0 with
  | GRet refDirs =>
      match normalise_rows refDirs with
      | [x] => GRet (map (fun w => map (fun i => co w i / co x i) (seq 0 3)) refDirs)
      | _ => GThrow
      end
  | GThrow => GThrow
  | GMore => GMore
  end.

(** ** Schaffer N.1: schaffer_function_n1.hpp 50-61, 72-86 *)
Definition schaffer1_evaluate (x : list R) : list R := [co x 0 ^ 2; (co x 0 - 2) ^ 2].
Definition schaffer1_objective (k : nat) (x : list R) : R :=
  match k with O => co x 0 ^ 2 | _ => (co x 0 - 2) ^ 2 end.

(** ** Fonseca-Fleming: fonseca_fleming_function.hpp 51-62, 73-95 *)
Definition fonseca_objective (k : nat) (x : list R) : R :=
  match k with
  | O => 1 - exp (- (co x 0 - 1 / sqrt 3) ^ 2 - (co x 1 - 1 / sqrt 3) ^ 2 - (co x 2 - 1 / sqrt 3) ^ 2)
  | _ => 1 - exp (- (co x 0 + 1 / sqrt 3) ^ 2 - (co x 1 + 1 / sqrt 3) ^ 2 - (co x 2 + 1 / sqrt 3) ^ 2)
  end.
Definition fonseca_evaluate (x : list R) : list R := [fonseca_objective 0 x; fonseca_objective 1 x].
