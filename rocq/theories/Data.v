(** Data handling: pixel preprocessing, index stream of the training sampler, split sizes,
    automatic histogram bins, initial leaf statistics.
    Sources: simple_einet/utils.py, dist.py, data.py, histogram.py, sampling_utils.py. *)
From Coq Require Import List Arith Lia Bool ZArith Reals.
Import ListNotations.
From Verif Require Import Base RSum Num Tensor TypeChecks.

(** * Pixels *)
Local Open Scope R_scope.

(** torch.floor on a real. *)
Definition rfloor (x : R) : Z := Int_part x.
(** utils.py:58-64 reduce_bits for one pixel *)
Definition reduce_bits (p : R) (n_bits : nat) : res R :=
  _ <- assert (if Rle_dec 0 p then (if Rle_dec p 1 then true else false) else false) ;;
  let p := p * 255 in
  Ok (if (n_bits <? 8)%nat then IZR (rfloor (p / 2 ^ (8 - n_bits))) else p).
(** utils.py:67-82 preprocess for one pixel, has_gauss_dist=False: [.long()] truncates. *)
Definition preprocess_discrete (p : R) (n_bits : nat) : res Z :=
  x <- reduce_bits p n_bits ;; Ok (rtrunc x).
(** has_gauss_dist=True; [u] is the draw of torch.rand_like, if dequantize (utils.py:54-55). *)
Definition preprocess_gauss (p : R) (n_bits : nat) (n_bins : R) (u : option R) : res R :=
  x <- reduce_bits p n_bits ;;
  let x := x / n_bins - 1 / 2 in
  Ok (match u with None => x | Some u => x + u / n_bins end).
(** Parameters that get_distribution passes to the leaf, dist.py:85-90. *)
Definition binomial_total_count (n_bits : nat) : Z := (2 ^ Z.of_nat n_bits - 1)%Z.
Definition categorical_num_bins (n_bits : nat) : Z := (2 ^ Z.of_nat n_bits - 1)%Z.
(** Supports of torch.distributions.Binomial(total_count) and Categorical of that many bins. *)
Definition in_binomial (total_count v : Z) : Prop := (0 <= v <= total_count)%Z.
Definition in_categorical (num_bins v : Z) : Prop := (0 <= v < num_bins)%Z.

(** * Index stream of the training sampler, data.py:878-921 *)
Section Sampler.
(** [size]; [perm k]: the k-th permutation drawn by torch.randperm(size, generator=g), or
    torch.arange(size) without shuffling. *)
Variable size : nat.
Variable shuffle : bool.
Variable perm : nat -> list nat.
(** One turn of [while True], data.py:917-921 *)
Definition turn (k : nat) : list nat := if shuffle then perm k else seq 0 size.
(** What the generator has yielded after [k] turns. *)
Fixpoint yielded (k : nat) : list nat :=
  match k with O => [] | S k' => yielded k' ++ turn k' end.
(** itertools.islice(stream, start, None, step), applied to a finite beginning of the stream. *)
Fixpoint islice (start step : nat) (l : list nat) : list nat :=
  match l with
  | [] => []
  | x :: l' => match start with O => x :: islice (step - 1) step l' | S s => islice s step l' end
  end.
(** __iter__ (data.py:909-911); self._rank = 0, self._world_size = 1 (:906-907). *)
Definition sampler_yielded (k : nat) : list nat := islice 0 1 (yielded k).
End Sampler.

(** * Split sizes *)
(** Python's round(m / 10), ties to even.  [N * 0.9] and [N * 0.1] in double precision round to
    the exact value whenever that has one decimal, so halves are hit exactly. *)
Definition round_tenths (m : nat) : nat :=
  let q := (m / 10)%nat in
  let r := (m mod 10)%nat in
  if (r <? 5)%nat then q else if (5 <? r)%nat then (q + 1)%nat
  else if Nat.even q then q else (q + 1)%nat.
(** data.py:419-421, 467-469, 504-506, 524-526, 598-600 *)
Definition split_by_difference (N : nat) : Z * Z :=
  let n_train := Z.of_nat (round_tenths (9 * N)) in (n_train, (Z.of_nat N - n_train)%Z).
(** data.py:539, 562 *)
Definition split_by_rounding (N : nat) : Z * Z :=
  (Z.of_nat (round_tenths (9 * N)), Z.of_nat (round_tenths N)).
(** torch.utils.data.random_split with integer lengths raises unless they sum to N. *)
Definition random_split_ok (N : nat) (l : Z * Z) : bool := (fst l + snd l =? Z.of_nat N)%Z.

(** * Automatic histogram bins, histogram.py:24-112 *)
(** Ascending insertion sort; torch.quantile sorts and interpolates linearly. *)
Fixpoint insert_sorted (x : R) (l : list R) : list R :=
  match l with [] => [x] | y :: l' => if Rle_dec x y then x :: l else y :: insert_sorted x l' end.
Definition rsort (l : list R) : list R := fold_right insert_sorted [] l.
Definition quantile (q : R) (l : list R) : R :=
  let s := rsort l in
  let pos := q * INR (length l - 1) in
  let lo := Z.to_nat (rfloor pos) in
  let f := pos - IZR (rfloor pos) in
  nth lo s 0 + f * (nth (lo + 1) s (nth lo s 0) - nth lo s 0).
Definition rmax_list (l : list R) : R := match l with [] => 0 | x :: l' => fold_left Rmax l' x end.
Definition rmin_list (l : list R) : R := match l with [] => 0 | x :: l' => fold_left Rmin l' x end.
(** :25-27 *)
Definition bin_fd (l : list R) : R := 2 * (quantile (3/4) l - quantile (1/4) l) * Rpower (INR (length l)) (- 1 / 3).
(** :29-33 *)
Definition bin_sturges (l : list R) : R := (rmax_list l - rmin_list l) / (ln (INR (length l)) / ln 2 + 1).
(** :35-38 *)
Definition bin_auto (l : list R) : R :=
  if Rlt_dec 0 (bin_fd l) then Rmin (bin_fd l) (bin_sturges l) else bin_sturges l.
(** The finite entries of a float vector. *)
Definition finite_of (l : list num) : list R :=
  flat_map (fun a => match a with Fin x => [x] | _ => [] end) l.
Definition all_finite (l : list num) : bool := forallb isfin l.
(** :88-112.  min and max of a vector with a NaN or infinite entry are not both finite. *)
Definition outer_edges (a : list num) (range : option (num * num)) : res (R * R) :=
  '(first, last) <- match range with
    | Some (Fin f, Fin l) => if Rlt_dec l f then Err ValueErr else Ok (f, l)
    | Some _ => Err ValueErr
    | None =>
        match a with
        | [] => Ok (0, 1)
        | _ => if all_finite a then Ok (rmin_list (finite_of a), rmax_list (finite_of a)) else Err ValueErr
        end
    end ;;
  Ok (if Req_EM_T first last then (first - 1/2, last + 1/2) else (first, last)).
(** Entries kept by [(a >= first) & (a <= last)]; NaN and infinities fail one of the tests. *)
Definition within (f l : R) (a : list R) : list R :=
  filter (fun x => if Rle_dec f x then (if Rle_dec x l then true else false) else false) a.
(** Smallest integer not below a real. *)
Definition rceil (x : R) : Z := (- Int_part (- x))%Z.
(** torch.linspace(f, l, n + 1) *)
Definition linspace (f l : R) (n : nat) : list R :=
  map (fun i => f + INR i * ((l - f) / INR n)) (seq 0 (n + 1)).
(** :41-86 (weights=None) *)
Definition bin_edges (a : list num) (range : option (num * num)) : res (list R * (R * R * Z)) :=
  '(f, l) <- outer_edges a range ;;
  let d := match range with None => finite_of a | Some _ => within f l (finite_of a) end in
  let n := match d with
           | [] => 1%Z
           | _ => if Rlt_dec 0 (bin_auto d) then rceil ((l - f) / bin_auto d) else 1%Z
           end in
  Ok (linspace f l (Z.to_nat n), (f, l, n)).

(** * Initial leaf statistics, sampling_utils.py:298-360 *)
(** A batch holds the values of one feature; mean and unbiased variance along dim 0. *)
Definition mean_of (b : list R) : num := ndiv (Fin (lsum (fun x => x) b)) (Fin (INR (length b))).
Definition var_of (b : list R) : num :=
  ndiv (Fin (lsum (fun x => (x - toR (mean_of b)) * (x - toR (mean_of b))) b)) (Fin (INR (length b) - 1)).
(** :312-325: the first batch initializes, later ones are added, then divided by the number of batches;
    no batch at all leaves None, and dividing it raises. *)
Definition average_stat (stat : list R -> num) (batches : list (list R)) : res num :=
  match batches with
  | [] => Err TypeErr
  | b :: bs => Ok (ndiv (fold_left (fun acc b => nadd acc (stat b)) bs (stat b)) (Fin (INR (length batches))))
  end.
(** :351-360 for one entry; [em], [ev]: the values drawn by torch.normal for it. *)
Definition init_mean (m : num) (em : R) : num := nadd m (Fin (1/10 * em)).
Definition init_logvar (v : num) (ev : R) : num :=
  nlog (nadd (nadd v (Fin (1/1000))) (Fin (Rmax (1/10 * ev) 0))).
