(** Model of the geometry of SurfaceRZFourier (src/simsoptpp/surfacerzfourier.cpp).  Arithmetic is over the real
    numbers; the OpenMP loops are run in order (their reductions are sums of real numbers). *)
From Coq Require Import Reals Lra Lia ZArith.
From Verif Require Import ListAux VecAux Vec3 SurfModel.
Open Scope R_scope.

Section Geom.
Variables (s : surf) (nfp : nat).

(** rc(m, i) and so on: entry i of row m *)
Definition ent (k : kind) (m i : nat) : R := nth (m * width s + i)%nat (arr s k) 0.
(** int n = i - ntor *)
Definition nn (i : nat) : R := INR i - INR (ntor s).
(** m*theta - n*nfp*phi *)
Definition ang (m i : nat) (theta phi : R) : R := INR m * theta - nn i * INR nfp * phi.

(** ** The loop over m and i with the sine and cosine updated by rotation, e.g. cpp:37-62 and 89-112.
    [thetas]: the angles in the SIMD lanes (one lane without SIMD); [junk]: whatever the uninitialised sinterm and
    costerm contain; [always]: costerm is recomputed in every turn (the missing braces of cpp:571-573, 794-796, 1096-1098). *)
Definition refresh (always : bool) (thetas : list R) (phi : R) (m i : nat) (sc : list (R * R)) : list (R * R) :=
  if (i mod 5 =? 0)%nat then map (fun t => (sin (ang m i t phi), cos (ang m i t phi))) thetas
  else if always then vmap2 (fun t x => (fst x, cos (ang m i t phi))) thetas sc else sc.
Definition rotate (phi : R) (i : nat) (sc : list (R * R)) : list (R * R) :=
  let sin_nfpphi := sin (- INR nfp * phi) in
  let cos_nfpphi := cos (- INR nfp * phi) in
  if (i mod 5 =? 4)%nat then sc
  else map (fun x => (cos_nfpphi * fst x + snd x * sin_nfpphi, snd x * cos_nfpphi - fst x * sin_nfpphi)) sc.
Definition vloop {A} (always : bool) (junk : list (R * R)) (thetas : list R) (phi : R)
    (body : nat -> nat -> list (R * R) -> A -> A) (a : A) : A :=
  fold_left (fun a m => snd (fold_left (fun st i =>
      let sc := refresh always thetas phi m i (fst st) in
      (rotate phi i sc, body m i sc (snd st))) (seq 0 (width s)) (junk, a)))
    (seq 0 (mpol s + 1)) a.
(** one lane *)
Definition loop {A} (junk : list (R * R)) (theta phi : R) (body : nat -> nat -> R -> R -> A -> A) (a : A) : A :=
  vloop false junk [theta] phi (fun m i sc => body m i (fst (nth 0 sc (0, 0))) (snd (nth 0 sc (0, 0)))) a.
(** the loops that call sin and cos each time: i outside, m inside (cpp:274-290 and so on), or m outside (cpp:137-148) *)
Definition plain_im {A} (theta phi : R) (body : nat -> nat -> R -> R -> A -> A) (a : A) : A :=
  fold_left (fun a i => fold_left (fun a m => body m i (sin (ang m i theta phi)) (cos (ang m i theta phi)) a) (seq 0 (mpol s + 1)) a) (seq 0 (width s)) a.
Definition plain_mi {A} (theta phi : R) (body : nat -> nat -> R -> R -> A -> A) (a : A) : A :=
  fold_left (fun a m => fold_left (fun a i => body m i (sin (ang m i theta phi)) (cos (ang m i theta phi)) a) (seq 0 (width s)) a) (seq 0 (mpol s + 1)) a.

Definition N (i : nat) : R := nn i * INR nfp.
(** ** Position and derivatives at one pair of quadrature points (qphi, qtheta) *)
(** cpp:24-125 gamma_impl *)
Definition gamma_body (m i : nat) (sn cs : R) (a : R * R) : R * R :=
  let '(r, z) := a in
  let r := r + ent RC m i * cs in
  let '(r, z) := if stellsym s then (r, z) else (r + ent RS m i * sn, z + ent ZC m i * cs) in
  (r, z + ent ZS m i * sn).
Definition gamma_at (junk : list (R * R)) (qphi qtheta : R) : vec3 :=
  let phi := 2 * PI * qphi in
  let '(r, z) := loop junk (2 * PI * qtheta) phi gamma_body (0, 0) in
  V3 (r * cos phi) (r * sin phi) z.
(** cpp:127-153 gamma_lin *)
Definition gamma_lin_at (qphi qtheta : R) : vec3 :=
  let phi := 2 * PI * qphi in
  let '(r, z) := plain_mi (2 * PI * qtheta) phi gamma_body (0, 0) in
  V3 (r * cos phi) (r * sin phi) z.
(** cpp:155-262 gammadash1_impl; state r, rd, zd *)
Definition gammadash1_at (junk : list (R * R)) (qphi qtheta : R) : vec3 :=
  let phi := 2 * PI * qphi in
  let '(r, rd, zd) := loop junk (2 * PI * qtheta) phi (fun m i sn cs a =>
      let '(r, rd, zd) := a in
      let r := r + ent RC m i * cs in
      let rd := rd + ent RC m i * N i * sn in
      let '(r, rd, zd) := if stellsym s then (r, rd, zd)
                          else (r + ent RS m i * sn, rd + ent RS m i * (- N i) * cs, zd + ent ZC m i * N i * sn) in
      (r, rd, zd + ent ZS m i * (- N i) * cs)) (0, 0, 0) in
  V3 (2 * PI * (rd * cos phi - r * sin phi)) (2 * PI * (rd * sin phi + r * cos phi)) (zd * (2 * PI)).
(** cpp:359-460 gammadash2_impl; state rd, zd *)
Definition gammadash2_at (junk : list (R * R)) (qphi qtheta : R) : vec3 :=
  let phi := 2 * PI * qphi in
  let '(rd, zd) := loop junk (2 * PI * qtheta) phi (fun m i sn cs a =>
      let '(rd, zd) := a in
      let rd := rd + ent RC m i * (- INR m) * sn in
      let '(rd, zd) := if stellsym s then (rd, zd) else (rd + ent RS m i * INR m * cs, zd + ent ZC m i * (- INR m) * sn) in
      (rd, zd + ent ZS m i * INR m * cs)) (0, 0) in
  V3 (2 * PI * rd * cos phi) (2 * PI * rd * sin phi) (zd * (2 * PI)).
(** cpp:264-295 gammadash1dash1_impl; state r, rd, rdd, zdd *)
Definition gammadash1dash1_at (qphi qtheta : R) : vec3 :=
  let phi := 2 * PI * qphi in
  let '(r, rd, rdd, zdd) := plain_im (2 * PI * qtheta) phi (fun m i sn cs a =>
      let '(r, rd, rdd, zdd) := a in
      let r := r + ent RC m i * cs in
      let rd := rd + - ent RC m i * (- N i) * sn in
      let rdd := rdd + - ent RC m i * (- N i) * (- N i) * cs in
      let '(r, rd, rdd, zdd) := if stellsym s then (r, rd, rdd, zdd)
           else (r + ent RS m i * sn, rd + ent RS m i * (- N i) * cs, rdd + - ent RS m i * (- N i) * (- N i) * sn,
                 zdd + - ent ZC m i * (- N i) * (- N i) * cs) in
      (r, rd, rdd, zdd + - ent ZS m i * (- N i) * (- N i) * sn)) (0, 0, 0, 0) in
  V3 (4 * PI * PI * (rdd * cos phi - 2 * rd * sin phi - r * cos phi))
     (4 * PI * PI * (rdd * sin phi + 2 * rd * cos phi - r * sin phi)) (4 * PI * PI * zdd).
(** cpp:297-323 gammadash1dash2_impl; state rd2, rd1d2, zd1d2 *)
Definition gammadash1dash2_at (qphi qtheta : R) : vec3 :=
  let phi := 2 * PI * qphi in
  let '(rd2, rd1d2, zd1d2) := plain_im (2 * PI * qtheta) phi (fun m i sn cs a =>
      let '(rd2, rd1d2, zd1d2) := a in
      let rd2 := rd2 + - ent RC m i * INR m * sn in
      let rd1d2 := rd1d2 + - ent RC m i * (- N i) * INR m * cs in
      let '(rd2, rd1d2, zd1d2) := if stellsym s then (rd2, rd1d2, zd1d2)
           else (rd2 + ent RS m i * INR m * cs, rd1d2 + - ent RS m i * (- N i) * INR m * sn, zd1d2 + - ent ZC m i * (- N i) * INR m * cs) in
      (rd2, rd1d2, zd1d2 + - ent ZS m i * (- N i) * INR m * sn)) (0, 0, 0) in
  V3 (4 * PI * PI * (rd1d2 * cos phi - rd2 * sin phi)) (4 * PI * PI * (rd1d2 * sin phi + rd2 * cos phi)) (4 * PI * PI * zd1d2).
(** cpp:325-357 gammadash2dash2_impl (rd and zd are computed but not used); state rdd, zdd *)
Definition gammadash2dash2_at (qphi qtheta : R) : vec3 :=
  let phi := 2 * PI * qphi in
  let '(rdd, zdd) := plain_im (2 * PI * qtheta) phi (fun m i sn cs a =>
      let '(rdd, zdd) := a in
      let rdd := rdd + - ent RC m i * INR m * INR m * cs in
      let '(rdd, zdd) := if stellsym s then (rdd, zdd) else (rdd + - ent RS m i * INR m * INR m * sn, zdd + - ent ZC m i * INR m * INR m * cs) in
      (rdd, zdd + - ent ZS m i * INR m * INR m * sn)) (0, 0) in
  V3 (4 * PI * PI * rdd * cos phi) (4 * PI * PI * rdd * sin phi) (4 * PI * PI * zdd).

(** ** Derivatives with respect to the dofs: the column of a coefficient (kind, m, n) *)
Definition column := kind -> nat -> nat -> R -> R -> vec3.   (* k m i theta phi *)
(** cpp:646-700 dgamma_by_dcoeff_impl *)
Definition d0 : column := fun k m i theta phi => let a := ang m i theta phi in
  match k with
  | RC => V3 (cos a * cos phi) (cos a * sin phi) 0
  | RS => V3 (sin a * cos phi) (sin a * sin phi) 0
  | ZC => V3 0 0 (cos a)
  | ZS => V3 0 0 (sin a)
  end.
(** cpp:834-882 dgammadash1_by_dcoeff_impl *)
Definition d1 : column := fun k m i theta phi => let a := ang m i theta phi in
  match k with
  | RC => V3 (2 * PI * (N i * sin a * cos phi - cos a * sin phi)) (2 * PI * (N i * sin a * sin phi + cos a * cos phi)) 0
  | RS => V3 (2 * PI * ((- N i) * cos a * cos phi - sin a * sin phi)) (2 * PI * ((- N i) * cos a * sin phi + sin a * cos phi)) 0
  | ZC => V3 0 0 (2 * PI * N i * sin a)
  | ZS => V3 0 0 (2 * PI * (- N i) * cos a)
  end.
(** cpp:1140-1188 dgammadash2_by_dcoeff_impl *)
Definition d2 : column := fun k m i theta phi => let a := ang m i theta phi in
  match k with
  | RC => V3 (2 * PI * (- INR m) * sin a * cos phi) (2 * PI * (- INR m) * sin a * sin phi) 0
  | RS => V3 (2 * PI * INR m * cos a * cos phi) (2 * PI * INR m * cos a * sin phi) 0
  | ZC => V3 0 0 (2 * PI * (- INR m) * sin a)
  | ZS => V3 0 0 (2 * PI * INR m * cos a)
  end.
(** cpp:939-992 dgammadash1dash1_by_dcoeff_impl *)
Definition d11 : column := fun k m i theta phi => let a := ang m i theta phi in let p := 4 * PI * PI in
  match k with
  | RC => V3 (p * (- (- N i) * (- N i) * cos a * cos phi + 2 * (- N i) * sin a * sin phi - cos a * cos phi))
             (p * (- (- N i) * (- N i) * cos a * sin phi - 2 * (- N i) * sin a * cos phi - cos a * sin phi)) 0
  | RS => V3 (p * (- (- N i) * (- N i) * sin a * cos phi - 2 * (- N i) * cos a * sin phi - sin a * cos phi))
             (p * (- (- N i) * (- N i) * sin a * sin phi + 2 * (- N i) * cos a * cos phi - sin a * sin phi)) 0
  | ZC => V3 0 0 (- p * (- N i) * (- N i) * cos a)
  | ZS => V3 0 0 (- p * (- N i) * (- N i) * sin a)
  end.
(** cpp:884-937 dgammadash1dash2_by_dcoeff_impl *)
Definition d12 : column := fun k m i theta phi => let a := ang m i theta phi in let p := 4 * PI * PI in
  match k with
  | RC => V3 (p * (INR m * N i * cos a * cos phi + INR m * sin a * sin phi)) (p * (INR m * N i * cos a * sin phi - INR m * sin a * cos phi)) 0
  | RS => V3 (p * (- (- N i) * INR m * sin a * cos phi - INR m * cos a * sin phi)) (p * (- (- N i) * INR m * sin a * sin phi + INR m * cos a * cos phi)) 0
  | ZC => V3 0 0 (p * nn i * INR nfp * INR m * cos a)
  | ZS => V3 0 0 (- p * (- N i) * INR m * sin a)
  end.
(** cpp:1190-1256 dgammadash2dash2_by_dcoeff_impl *)
Definition d22 : column := fun k m i theta phi => let a := ang m i theta phi in let p := 4 * PI * PI in
  match k with
  | RC => V3 (- p * INR m * INR m * cos a * cos phi) (- p * INR m * INR m * cos a * sin phi) 0
  | RS => V3 (- p * INR m * INR m * sin a * cos phi) (- p * INR m * INR m * sin a * sin phi) 0
  | ZC => V3 0 0 (- p * INR m * INR m * cos a)
  | ZS => V3 0 0 (- p * INR m * INR m * sin a)
  end.
(** the four loops with their counter: for RC and ZC skip n < 0 when m = 0, for RS and ZS also n = 0 *)
Definition skipped (k : kind) (m i : nat) : bool :=
  (m =? 0)%nat && match k with RC | ZC => (i <? ntor s)%nat | RS | ZS => (i <=? ntor s)%nat end.
Definition dcoeff_loop (d : column) (k : kind) (theta phi : R) : list vec3 :=
  flat_map (fun m => flat_map (fun i => if skipped k m i then [] else [d k m i theta phi]) (seq 0 (width s))) (seq 0 (mpol s + 1)).
(** the last index of the array, at (qphi, qtheta) *)
Definition dcoeff (d : column) (qphi qtheta : R) : list vec3 :=
  let phi := 2 * PI * qphi in let theta := 2 * PI * qtheta in
  dcoeff_loop d RC theta phi ++ (if stellsym s then [] else dcoeff_loop d RS theta phi ++ dcoeff_loop d ZC theta phi) ++ dcoeff_loop d ZS theta phi.

(** ** Vector-Jacobian products *)
(** cpp:491-495 and so on: the four shifts (integers) *)
Definition tot : Z := ((Z.of_nat (mpol s) + 1) * (2 * Z.of_nat (ntor s) + 1))%Z.
Definition shift (k : kind) : Z := let nt := Z.of_nat (ntor s) in
  let shift0 := (- nt)%Z in
  let shift1 := if stellsym s then shift0 else (shift0 + tot - nt - 1)%Z in
  let shift2 := if stellsym s then shift1 else (shift1 + tot - nt)%Z in
  let shift3 := (shift2 + tot - nt - 1)%Z in
  match k with RC => shift0 | RS => shift1 | ZC => shift2 | ZS => shift3 end.
(** a SIMD register: the values of (sinterm, costerm), and the lanes of v; hadd sums the lanes *)
Definition hadd (f : R -> R -> vec3 -> R) (l : list (R * R * vec3)) : R := rsuml (map (fun x => f (fst (fst x)) (snd (fst x)) (snd x)) l).
Definition vjp_body := R -> kind -> nat -> nat -> list (R * R * vec3) -> list R.   (* phi k m i lanes: the amounts added *)
(** cpp:511-525 / 574-588 *)
Definition b0 : vjp_body := fun phi k m i l => let cosphi := cos phi in let sinphi := sin phi in
  match k with
  | RC => [cosphi * hadd (fun sn cs v => cs * vx v) l; sinphi * hadd (fun sn cs v => cs * vy v) l]
  | RS => [cosphi * hadd (fun sn cs v => sn * vx v) l; sinphi * hadd (fun sn cs v => sn * vy v) l]
  | ZC => [hadd (fun sn cs v => cs * vz v) l]
  | ZS => [hadd (fun sn cs v => sn * vz v) l]
  end.
(** cpp:741-755 / 797-811 *)
Definition b1 : vjp_body := fun phi k m i l => let cosphi := cos phi in let sinphi := sin phi in
  match k with
  | RC => [hadd (fun sn cs v => (sn * (N i * cosphi) - cs * sinphi) * vx v) l; hadd (fun sn cs v => (sn * (N i * sinphi) + cs * cosphi) * vy v) l]
  | RS => [hadd (fun sn cs v => (cs * ((- N i) * cosphi) - sn * sinphi) * vx v) l; hadd (fun sn cs v => (cs * ((- N i) * sinphi) + sn * cosphi) * vy v) l]
  | ZC => [hadd (fun sn cs v => N i * sn * vz v) l]
  | ZS => [hadd (fun sn cs v => (- N i) * cs * vz v) l]
  end.
(** cpp:1040-1054 / 1099-1113 ("-=" adds the opposite) *)
Definition b2 : vjp_body := fun phi k m i l => let cosphi := cos phi in let sinphi := sin phi in
  match k with
  | RC => [- (cosphi * INR m * hadd (fun sn cs v => sn * vx v) l); - (sinphi * INR m * hadd (fun sn cs v => sn * vy v) l)]
  | RS => [cosphi * INR m * hadd (fun sn cs v => cs * vx v) l; sinphi * INR m * hadd (fun sn cs v => cs * vy v) l]
  | ZC => [- (INR m * hadd (fun sn cs v => sn * vz v) l)]
  | ZS => [INR m * hadd (fun sn cs v => cs * vz v) l]
  end.
(** the additions to resptr_private made for one register, in order: (index, amount) *)
Definition additions (always : bool) (junk : list (R * R)) (b : vjp_body) (phi : R) (lanes : list (R * vec3)) : list (Z * R) :=
  snd (vloop always junk (map fst lanes) phi (fun m i sc st =>
      let '(counter, w) := st in
      let l := combine sc (map snd lanes) in
      let at_ k := map (fun x => ((counter + shift k)%Z, x)) (b phi k m i l) in
      let n := (Z.of_nat i - Z.of_nat (ntor s))%Z in
      ((counter + 1)%Z,
       w ++ (if negb ((m =? 0)%nat && (n <? 0)%Z) then at_ RC else [])
         ++ (if negb (stellsym s) && negb ((m =? 0)%nat && (n <=? 0)%Z) then at_ RS else [])
         ++ (if negb (stellsym s) && negb ((m =? 0)%nat && (n <? 0)%Z) then at_ ZC else [])
         ++ (if negb ((m =? 0)%nat && (n <=? 0)%Z) then at_ ZS else []))) (0%Z, [])).
(** the registers for one k1: theta and v are zero in the lanes past the end (cpp:477-490); simd_size = sz *)
Definition starts (sz n : nat) : list nat := map (fun c => (c * sz)%nat) (seq 0 ((n + sz - 1) / sz)).
Definition registers {A} (sz : nat) (pad : A) (lane : nat -> A) (n : nat) : list (list A) :=
  map (fun k2 => map (fun l => if (k2 + l <? n)%nat then lane (k2 + l)%nat else pad) (seq 0 sz)) (starts sz n).
Definition vjp_additions (always : bool) (sz : nat) (junk : list (R * R)) (b : vjp_body) (qphis qthetas : list R) (v : nat -> nat -> vec3) : list (Z * R) :=
  flat_map (fun k1 => flat_map (additions always junk b (2 * PI * nth k1 qphis 0))
      (registers sz (0, v0) (fun k2 => (2 * PI * nth k2 qthetas 0, v k1 k2)) (length qthetas))) (seq 0 (length qphis)).
Definition collect (n : nat) (w : list (Z * R)) : list R :=
  map (fun j => rsuml (map (fun a => if Z.eqb (fst a) (Z.of_nat j) then snd a else 0) w)) (seq 0 n).
(** [scale] is the final res *= 2*M_PI of the two derivatives *)
Definition vjp (always : bool) (sz : nat) (junk : list (R * R)) (b : vjp_body) (scale : R) (qphis qthetas : list R) (v : nat -> nat -> vec3) : list R :=
  map (fun x => x * scale) (collect (num_dofs s) (vjp_additions always sz junk b qphis qthetas v)).
(** the loop over k2 of gamma_impl (and of the derivatives) with simd_size sz: the values stored for one k1 *)
Definition simd_row (sz : nat) (f : R -> vec3) (qthetas : list R) : list vec3 :=
  flat_map (fun k2 => map (fun l => f (nth (k2 + l) qthetas 0)) (filter (fun l => (k2 + l <? length qthetas)%nat) (seq 0 sz))) (starts sz (length qthetas)).
End Geom.
