(** Model of thewalrus/fock_gradients.py.  Arrays are functions of the index list; np.sqrt(np.arange(cutoff)) is the table
    k |-> sqrt(k).  Python's negative indices wrap around: [wrap c k j] is the position read by the index k - j in an axis of length c
    (for j > c + k the compiled code reads outside the array; such reads are always multiplied by sqrt[0] = 0). *)
From mathcomp Require Import all_ssreflect all_algebra.
From Verif Require Import Prelude PyBase ArrLoop MHermite.
Set Implicit Arguments.
Unset Strict Implicit.
Unset Printing Implicit Defensive.
Import GRing.Theory Num.Theory.
Local Open Scope ring_scope.

Section Gates.
Variable C : numClosedFieldType.
(** np.exp, np.cosh, np.tanh, np.cos, np.sin *)
Variables exp cosh tanh cos sin : C -> C.
Notation ten := (seq nat -> C).
Definition wrap (c k j : nat) : nat := if (j <= k)%N then (k - j)%N else (c + k - j)%N.
Definition sqt (k : nat) : C := sqrtC k%:R.
Let zeros : ten := fun=> 0.

(** fock_gradients.py:48-72 [displacement(r, phi, cutoff)] *)
Definition displacement (r phi : C) (cutoff : nat) : ten :=
  let mu0 := r * exp ('i * phi) in
  let mu1 := - r * exp (- 'i * phi) in
  let D := updG zeros [:: 0; 0]%N (exp (- 2%:R^-1 * r ^+ 2)) in
  let D := for_ (pyrange 1 cutoff) D (fun D m => updG D [:: m; 0]%N (mu0 / sqt m * D [:: m - 1; 0]%N)) in
  for_ (pyrange 0 cutoff) D (fun D m => for_ (pyrange 1 cutoff) D (fun D n =>
    updG D [:: m; n]%N (mu1 / sqt n * D [:: m; n - 1]%N + sqt m / sqt n * D [:: wrap cutoff m 1; n - 1]%N))).

(** fock_gradients.py:76-104 [grad_displacement(T, r, phi)]; cutoff = T.shape[0] *)
Definition grad_displacement (cutoff : nat) (T : ten) (r phi : C) : ten * ten :=
  let ei := exp ('i * phi) in
  let eic := exp (- 'i * phi) in
  let alpha := r * ei in
  let alphac := r * eic in
  for_ (pyrange 0 cutoff) (zeros, zeros) (fun g m => for_ (pyrange 0 cutoff) g (fun g n =>
    (updG g.1 [:: m; n]%N (- r * T [:: m; n]%N + sqt m * ei * T [:: wrap cutoff m 1; n]%N - sqt n * eic * T [:: m; wrap cutoff n 1]%N),
     updG g.2 [:: m; n]%N (sqt m * 'i * alpha * T [:: wrap cutoff m 1; n]%N + sqt n * 'i * alphac * T [:: m; wrap cutoff n 1]%N)))).

(** fock_gradients.py:108-143 [squeezing(r, theta, cutoff)]; range(2, cutoff, 2) is the even part of range(2, cutoff) *)
Definition squeezing (r theta : C) (cutoff : nat) : ten :=
  let eitheta_tanhr := exp ('i * theta) * tanh r in
  let sechr := 1 / cosh r in
  let R00 := - eitheta_tanhr in
  let R01 := sechr in
  let R11 := eitheta_tanhr^* in
  let S := updG zeros [:: 0; 0]%N (sqrtC sechr) in
  let S := for_ [seq m <- pyrange 2 cutoff | ~~ odd m] S (fun S m =>
    updG S [:: m; 0]%N (sqt (m - 1) / sqt m * R00 * S [:: m - 2; 0]%N)) in
  for_ (pyrange 0 cutoff) S (fun S m => for_ (pyrange 1 cutoff) S (fun S n =>
    if ((m + n) %% 2 == 0)%N then
      updG S [:: m; n]%N (sqt (n - 1) / sqt n * R11 * S [:: m; wrap cutoff n 2]%N + sqt m / sqt n * R01 * S [:: wrap cutoff m 1; n - 1]%N)
    else S)).

(** fock_gradients.py:147-182 [grad_squeezing(T, r, phi)] *)
Definition grad_squeezing (cutoff : nat) (T : ten) (r phi : C) : ten * ten :=
  let sechr := 1 / cosh r in
  let tanhr := tanh r in
  let eiphi := exp ('i * phi) in
  let eiphiconj := exp (- 'i * phi) in
  let h := 2%:R^-1 in
  for_ (pyrange 0 cutoff) (zeros, zeros) (fun g m => for_ (pyrange 0 cutoff) g (fun g n =>
    (updG g.1 [:: m; n]%N (- h * tanhr * T [:: m; n]%N
        - sechr * tanhr * sqt m * sqt n * T [:: wrap cutoff m 1; wrap cutoff n 1]%N
        - h * eiphi * sechr ^+ 2 * sqt m * sqt (wrap cutoff m 1%N) * T [:: wrap cutoff m 2; n]%N
        + h * eiphiconj * sechr ^+ 2 * sqt n * sqt (wrap cutoff n 1%N) * T [:: m; wrap cutoff n 2]%N),
     updG g.2 [:: m; n]%N (- (h * 'i) * eiphi * tanhr * sqt m * sqt (wrap cutoff m 1%N) * T [:: wrap cutoff m 2; n]%N
        - (h * 'i) * eiphiconj * tanhr * sqt n * sqt (wrap cutoff n 1%N) * T [:: m; wrap cutoff n 2]%N)))).

(** fock_gradients.py:186-236 [two_mode_squeezing(r, theta, cutoff)]; the loop bound tests 0 < q < cutoff with the integer
    q = p - (m - n) are rendered on natural numbers *)
Definition two_mode_squeezing (r theta : C) (cutoff : nat) : ten :=
  let sc := 1 / cosh r in
  let eiptr := exp (- 'i * theta) * tanh r in
  let R01 := - - eiptr^* in
  let R02 := - - sc in
  let R13 := - - sc in
  let R23 := - eiptr in
  let Z := updG zeros [:: 0; 0; 0; 0]%N sc in
  let Z := for_ (pyrange 1 cutoff) Z (fun Z n => updG Z [:: n; n; 0; 0]%N (R01 * Z [:: n - 1; n - 1; 0; 0]%N)) in
  let Z := for_ (pyrange 0 cutoff) Z (fun Z m => for_ (pyrange 0 m) Z (fun Z n =>
    let p := (m - n)%N in
    if (0 < p < cutoff)%N then updG Z [:: m; n; p; 0]%N (R02 * sqt m / sqt p * Z [:: m - 1; n; p - 1; 0]%N) else Z)) in
  for_ (pyrange 0 cutoff) Z (fun Z m => for_ (pyrange 0 cutoff) Z (fun Z n => for_ (pyrange 0 cutoff) Z (fun Z p =>
    let q := (p + n - m)%N in
    if (m < p + n)%N && (q < cutoff)%N then
      updG Z [:: m; n; p; q]%N (R13 * sqt n / sqt q * Z [:: m; wrap cutoff n 1; p; q - 1]%N
                            + R23 * sqt p / sqt q * Z [:: m; n; wrap cutoff p 1; q - 1]%N)
    else Z))).

(** fock_gradients.py:240-301 [grad_two_mode_squeezing(T, r, theta)] *)
Definition grad_two_mode_squeezing (cutoff : nat) (T : ten) (r theta : C) : ten * ten :=
  let sechr := 1 / cosh r in
  let tanhr := tanh r in
  let ei := exp ('i * theta) in
  let eic := exp (- 'i * theta) in
  let w := wrap cutoff in
  let g := (updG zeros [:: 0; 0; 0; 0]%N (- sechr * tanhr), zeros) in
  let g := for_ (pyrange 1 cutoff) g (fun g n =>
    (updG g.1 [:: n; n; 0; 0]%N (- tanhr * T [:: n; n; 0; 0]%N + sqt n * sqt n * ei * sechr ^+ 2 * T [:: n - 1; n - 1; 0; 0]%N),
     updG g.2 [:: n; n; 0; 0]%N ('i * ei * tanhr * sqt n * sqt n * T [:: n - 1; n - 1; 0; 0]%N))) in
  let g := for_ (pyrange 0 cutoff) g (fun g m => for_ (pyrange 0 m) g (fun g n =>
    let p := (m - n)%N in
    if (0 < p < cutoff)%N then
      (updG g.1 [:: m; n; p; 0]%N (- tanhr * T [:: m; n; p; 0]%N + sqt m * sqt n * ei * sechr ^+ 2 * T [:: m - 1; w n 1; p; 0]%N
          - tanhr * sechr * sqt m * sqt p * T [:: m - 1; n; p - 1; 0]%N),
       updG g.2 [:: m; n; p; 0]%N ('i * ei * tanhr * sqt m * sqt n * T [:: m - 1; w n 1; p; 0]%N))
    else g)) in
  for_ (pyrange 0 cutoff) g (fun g m => for_ (pyrange 0 cutoff) g (fun g n => for_ (pyrange 0 cutoff) g (fun g p =>
    for_ (pyrange 0 cutoff) g (fun g q =>
      (updG g.1 [:: m; n; p; q]%N (- tanhr * T [:: m; n; p; q]%N
          + sqt m * sqt n * ei * sechr ^+ 2 * T [:: w m 1; w n 1; p; q]%N
          - tanhr * sechr * sqt m * sqt p * T [:: w m 1; n; w p 1; q]%N
          - tanhr * sechr * sqt n * sqt q * T [:: m; w n 1; p; w q 1]%N
          - sqt p * sqt q * eic * sechr ^+ 2 * T [:: m; n; w p 1; w q 1]%N),
       updG g.2 [:: m; n; p; q]%N ('i * ei * tanhr * sqt m * sqt n * T [:: w m 1; w n 1; p; q]%N
          + 'i * eic * tanhr * sqt p * sqt q * T [:: m; n; w p 1; w q 1]%N)))))).

(** the loops of fock_gradients.py:331-352 [beamsplitter] and 435-456 [mzgate] are the same text *)
Definition passive_fill (R02 R03 R12 R13 : C) (cutoff : nat) : ten :=
  let Z := updG zeros [:: 0; 0; 0; 0]%N 1 in
  let Z := for_ (pyrange 0 cutoff) Z (fun Z m => for_ (pyrange 0 (cutoff - m)) Z (fun Z n =>
    let p := (m + n)%N in
    if (0 < p < cutoff)%N then
      updG Z [:: m; n; p; 0]%N (R02 * sqt m / sqt p * Z [:: wrap cutoff m 1; n; p - 1; 0]%N
                              + R12 * sqt n / sqt p * Z [:: m; wrap cutoff n 1; p - 1; 0]%N)
    else Z)) in
  for_ (pyrange 0 cutoff) Z (fun Z m => for_ (pyrange 0 cutoff) Z (fun Z n => for_ (pyrange 0 cutoff) Z (fun Z p =>
    let q := (m + n - p)%N in
    if (p < m + n)%N && (q < cutoff)%N then
      updG Z [:: m; n; p; q]%N (R03 * sqt m / sqt q * Z [:: wrap cutoff m 1; n; p; q - 1]%N
                            + R13 * sqt n / sqt q * Z [:: m; wrap cutoff n 1; p; q - 1]%N)
    else Z))).

(** fock_gradients.py:305-352 [beamsplitter(theta, phi, cutoff)] *)
Definition beamsplitter (theta phi : C) (cutoff : nat) : ten :=
  let ct := cos theta in
  let st := sin theta * exp ('i * phi) in
  passive_fill ct (- st^*) st ct cutoff.

(** fock_gradients.py:409-456 [mzgate(theta, phi, cutoff)] *)
Definition mzgate (theta phi : C) (cutoff : nat) : ten :=
  let v := exp ('i * theta) in
  let u := exp ('i * phi) in
  let h := 2%:R^-1 in
  passive_fill (h * (u * (v - 1))) (h * ('i * (1 + v))) (h * ('i * u * (1 + v))) (h * (1 - v)) cutoff.

(** the loops of fock_gradients.py:381-405 [grad_beamsplitter] and 484-510 [grad_mzgate]; g3 and g4 are the right-hand sides *)
Definition passive_grad_fill (cutoff : nat) (g3 : nat -> nat -> nat -> C * C) (g4 : nat -> nat -> nat -> nat -> C * C) : ten * ten :=
  let g := for_ (pyrange 0 cutoff) (zeros, zeros) (fun g m => for_ (pyrange 0 (cutoff - m)) g (fun g n =>
    let p := (m + n)%N in
    if (0 < p < cutoff)%N then (updG g.1 [:: m; n; p; 0]%N (g3 m n p).1, updG g.2 [:: m; n; p; 0]%N (g3 m n p).2) else g)) in
  for_ (pyrange 0 cutoff) g (fun g m => for_ (pyrange 0 cutoff) g (fun g n => for_ (pyrange 0 cutoff) g (fun g p =>
    let q := (m + n - p)%N in
    if (p < m + n)%N && (q < cutoff)%N then (updG g.1 [:: m; n; p; q]%N (g4 m n p q).1, updG g.2 [:: m; n; p; q]%N (g4 m n p q).2)
    else g))).

(** fock_gradients.py:356-405 [grad_beamsplitter(T, theta, phi)] *)
Definition grad_beamsplitter (cutoff : nat) (T : ten) (theta phi : C) : ten * ten :=
  let ct := cos theta in
  let st := sin theta in
  let ei := exp ('i * phi) in
  let eic := exp (- 'i * phi) in
  let w := wrap cutoff in
  passive_grad_fill cutoff
    (fun m n p => (- sqt m * sqt p * st * T [:: w m 1; n; p - 1; 0]%N + sqt n * sqt p * ei * ct * T [:: m; w n 1; p - 1; 0]%N,
                   'i * sqt n * sqt p * ei * st * T [:: m; w n 1; p - 1; 0]%N))
    (fun m n p q => (- sqt m * sqt p * st * T [:: w m 1; n; w p 1; q]%N - sqt n * sqt q * st * T [:: m; w n 1; p; q - 1]%N
                      + sqt n * sqt p * ei * ct * T [:: m; w n 1; w p 1; q]%N - sqt m * sqt q * eic * ct * T [:: w m 1; n; p; q - 1]%N,
                     'i * sqt n * sqt p * ei * st * T [:: m; w n 1; w p 1; q]%N + 'i * sqt m * sqt q * eic * st * T [:: w m 1; n; p; q - 1]%N)).

(** fock_gradients.py:460-510 [grad_mzgate(T, theta, phi)] *)
Definition grad_mzgate (cutoff : nat) (T : ten) (theta phi : C) : ten * ten :=
  let v := exp ('i * theta) in
  let u := exp ('i * phi) in
  let h := 2%:R^-1 in
  let w := wrap cutoff in
  passive_grad_fill cutoff
    (fun m n p => ('i * h * u * v * sqt m * sqt p * T [:: w m 1; n; p - 1; 0]%N - h * u * v * sqt n * sqt p * T [:: m; w n 1; p - 1; 0]%N,
                   ('i * h * u * v - 'i * h * u) * sqt m * sqt p * T [:: w m 1; n; p - 1; 0]%N
                     - (h * u + h * u * v) * sqt n * sqt p * T [:: m; w n 1; p - 1; 0]%N))
    (fun m n p q => ('i * h * u * v * sqt m * sqt p * T [:: w m 1; n; w p 1; q]%N - h * u * v * sqt n * sqt p * T [:: m; w n 1; w p 1; q]%N
                      - h * v * sqt m * sqt q * T [:: w m 1; n; p; q - 1]%N - 'i * h * v * sqt n * sqt q * T [:: m; w n 1; p; q - 1]%N,
                     ('i * h * u * v - 'i * h * u) * sqt m * sqt p * T [:: w m 1; n; w p 1; q]%N
                       - (h * u + h * u * v) * sqt n * sqt p * T [:: m; w n 1; w p 1; q]%N)).
End Gates.
