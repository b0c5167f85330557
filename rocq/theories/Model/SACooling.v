(** Model of ens::ExponentialSchedule.
    File: /repo/include/ensmallen_bits/sa/exponential_schedule.hpp. *)
From Verif.Base Require Import Num.

(** NextTemperature (48-54); the energy is not used *)
Definition exponential_schedule {N : Num} (lambda : N) (currentTemperature currentEnergy : N) : N :=
  nmul (nsub n1 lambda) currentTemperature.
