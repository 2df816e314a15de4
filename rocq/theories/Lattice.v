(** Model of the lattice index maps of /repo/src/measurement.c.

    The map arrays are allocated by AllocateMeasurementData (measurement.c:90-102) and
    AllocateUnequalTimeMeasurementData with malloc; their previous contents are an argument.
    Integers do not wrap around (see Overflow.v for when that is justified). *)
From Coq Require Import ZArith List Bool.
From Verif Require Import Base ParamParser.
Local Open Scope Z_scope.

(** measurement.c:15-46 [ConstructLatticeCoordinateSumMap] *)
Definition lattice_sum_map (Nx Ny pbc_shift : Z) (latt_sum_map : list Z) : option (list Z) :=
  let Ncell := Nx * Ny in
  for_range 0 Ny (fun j m =>
  for_range 0 Nx (fun i m =>
    let ij := i + Nx * j in
    for_range 0 Ny (fun l m =>
    for_range 0 Nx (fun k m =>
      let kl := k + Nx * l in
      let* u := cmod (i + k + (if j + l <? Ny then 0 else pbc_shift)) Nx in
      let* v := cmod (j + l) Ny in
      aset m (ij + Ncell * kl) (u + Nx * v)) m) m) m) latt_sum_map.

Record nn_maps := mk_nn_maps { xp1 : list Z; xm1 : list Z; yp1 : list Z; ym1 : list Z }.

(** measurement.c:53-76 [ConstructLatticeNearestNeighborMap] *)
Definition lattice_nn_map (Nx Ny : Z) (m0 : nn_maps) : option nn_maps :=
  for_range 0 Ny (fun j m =>
    let j_next := if j <? Ny - 1 then j + 1 else 0 in
    let j_prev := if 0 <? j then j - 1 else Ny - 1 in
    for_range 0 Nx (fun i m =>
      let i_next := if i <? Nx - 1 then i + 1 else 0 in
      let i_prev := if 0 <? i then i - 1 else Nx - 1 in
      let ij := i + Nx * j in
      let* a := aset (xp1 m) ij (i_next + Nx * j) in
      let* b := aset (xm1 m) ij (i_prev + Nx * j) in
      let* c := aset (yp1 m) ij (i + Nx * j_next) in
      let* d := aset (ym1 m) ij (i + Nx * j_prev) in
      Some (mk_nn_maps a b c d)) m) m0.
