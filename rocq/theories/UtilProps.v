(* Property theorems C01-C09 about falco/util.py. *)
From Verif Require Import Base RBase UtilModel UtilSpec UtilProofs.
Open Scope Z_scope.

(* C01: pad_crop returns exactly r x c pixels; each pixel is the input pixel at the same offset
   from the centre, or the fill value when the input has no such pixel. *)
Theorem C01_pad_crop_places_by_centre_offset : forall (A : Type) (a : arr A) r c (e : A),
  0 <= nr a -> 0 <= nc a -> 0 < r -> 0 < c ->
  exists out, pad_crop a r c e = Ok out /\ is_recentred a r c e out.
Proof. exact (fun A a r c e => pad_crop_recentred a r c e). Qed.
Print Assumptions C01_pad_crop_places_by_centre_offset.

Example C01_pad_case :
  match pad_crop (mkarr 2 3 (fun i j => 10 * i + j + 11)) 3 5 0 with
  | Ok o => arr_to_lists o | Raise _ => [] end
  = [[0; 11; 12; 13; 0]; [0; 21; 22; 23; 0]; [0; 0; 0; 0; 0]].
Proof. vm_compute. reflexivity. Qed.
Example C01_crop_case :
  match pad_crop (mkarr 3 4 (fun i j => 10 * i + j + 11)) 2 1 0 with
  | Ok o => arr_to_lists o | Raise _ => [] end = [[13]; [23]].
Proof. vm_compute. reflexivity. Qed.

(* C02: chained pad_crop calls equal the direct call whenever no intermediate size is smaller
   than both the input and the final size; the order of intermediate sizes never matters;
   padding followed by cropping back is the identity. *)
Theorem C02_pad_crop_chain_equals_direct : forall (A : Type) (e : A) (a : arr A) sizes r c,
  0 <= nr a -> 0 <= nc a -> Forall pos_size sizes -> 0 < r -> 0 < c ->
  Forall (fun s => Z.min (nr a) r <= fst s /\ Z.min (nc a) c <= snd s) sizes ->
  res_arr_eq (pad_crop_chain a (sizes ++ [(r, c)]) e) (pad_crop a r c e).
Proof. exact (fun A e a => chain_direct e a). Qed.
Print Assumptions C02_pad_crop_chain_equals_direct.

Theorem C02_pad_crop_chain_order_irrelevant : forall (A : Type) (e : A) (a : arr A) s1 s2 r c,
  0 <= nr a -> 0 <= nc a -> Forall pos_size s1 -> 0 < r -> 0 < c ->
  (forall x, In x s1 <-> In x s2) ->
  res_arr_eq (pad_crop_chain a (s1 ++ [(r, c)]) e) (pad_crop_chain a (s2 ++ [(r, c)]) e).
Proof. exact (fun A e a => chain_perm e a). Qed.
Print Assumptions C02_pad_crop_chain_order_irrelevant.

Theorem C02_pad_then_crop_is_identity : forall (A : Type) (e : A) (a : arr A) r c,
  0 < nr a -> 0 < nc a -> nr a <= r -> nc a <= c ->
  exists b d, pad_crop a r c e = Ok b /\ pad_crop b (nr a) (nc a) e = Ok d /\ arr_eq d a.
Proof. exact (fun A e a => roundtrip e a). Qed.
Print Assumptions C02_pad_then_crop_is_identity.

(* The docstring's claim without the size condition is false. *)
Theorem C02_unrestricted_chaining_refuted :
  exists (a : arr Z) s r c, 0 < nr a /\ 0 < nc a /\ pos_size s /\ 0 < r /\ 0 < c /\
    ~ res_arr_eq (pad_crop_chain a [s; (r, c)] 0) (pad_crop a r c 0).
Proof. exact chain_refuted. Qed.
Print Assumptions C02_unrestricted_chaining_refuted.

Example C02_hypotheses_met :
  let a := mkarr 2 5 (fun i j => i + j) in
  Forall (fun s => Z.min (nr a) 4 <= fst s /\ Z.min (nc a) 3 <= snd s) [(2, 4); (9, 3); (3, 7)].
Proof. repeat constructor; cbn; lia. Qed.

(* C03: pad_crop_py returns exactly for a 2-D array, a real fill and a size given as one positive
   Python int or a pair of positive Python ints; every rejection is a TypeError. *)
Theorem C03_pad_crop_accepts_exactly_valid_sizes : forall (A : Type) (x : nd_arg A) s f,
  (forall a, x = Nd2 a -> 0 <= nr a /\ 0 <= nc a) ->
  ((exists out, pad_crop_py x s f = Ok out) <->
   (exists a e r c, x = Nd2 a /\ f = FillReal e /\
      (0 < r /\ 0 < c /\ (s = SSeq [EInt r; EInt c] \/ (s = SInt r /\ r = c))))) /\
  (forall ex, pad_crop_py x s f = Raise ex -> ex = TypeError).
Proof. exact (fun A => pad_crop_py_ok_iff). Qed.
Print Assumptions C03_pad_crop_accepts_exactly_valid_sizes.

Theorem C03_pad_crop_py_result : forall (A : Type) (a : arr A) s r c e,
  (0 < r /\ 0 < c /\ (s = SSeq [EInt r; EInt c] \/ (s = SInt r /\ r = c))) ->
  pad_crop_py (Nd2 a) s (FillReal e) = pad_crop a r c e.
Proof. exact (fun A => pad_crop_py_valid). Qed.
Print Assumptions C03_pad_crop_py_result.

(* Documented: outsize may be an int, np.integer or ndarray of positive integers; numpy integers
   are in fact rejected. *)
Theorem C03_numpy_integer_sizes_accepted_refuted :
  exists (a : arr Z) s z, (s = SNpInt z \/ s = SSeq [ENpInt z; ENpInt z]) /\ 0 < z /\
    0 < nr a /\ 0 < nc a /\ pad_crop_py (Nd2 a) s (FillReal 0) = Raise TypeError.
Proof. exact np_int_refuted. Qed.
Print Assumptions C03_numpy_integer_sizes_accepted_refuted.

(* C04: offcenter_crop returns exactly the window of size r x c whose centre pixel (r/2, c/2) is
   the input pixel nearest to the requested centre, zeros outside the input. *)
Theorem C04_offcenter_crop_window : forall (A : Type) (zero : A) (a : arr A) (cr cc : R) r c,
  0 < nr a -> 0 < nc a -> 0 < r -> 0 < c ->
  exists ir ic out, (Rabs (IZR ir - cr) <= / 2)%R /\ (Rabs (IZR ic - cc) <= / 2)%R /\
   offcenter_crop zero a cr cc r c = Ok out /\ nr out = r /\ nc out = c /\
   forall i j, 0 <= i < r -> 0 <= j < c ->
     px out i j = pixel_or zero a (i - r / 2 + ir) (j - c / 2 + ic).
Proof. exact (fun A => offcenter_crop_spec). Qed.
Print Assumptions C04_offcenter_crop_window.

Theorem C04_offcenter_crop_window_integer_centre :
  forall (A : Type) (zero : A) (a : arr A) cr cc r c,
  0 < nr a -> 0 < nc a -> 0 < r -> 0 < c ->
  exists out, offcenter_crop zero a (IZR cr) (IZR cc) r c = Ok out /\ nr out = r /\ nc out = c /\
   forall i j, 0 <= i < r -> 0 <= j < c ->
     px out i j = pixel_or zero a (i - r / 2 + cr) (j - c / 2 + cc).
Proof.
  exact (fun A zero a cr cc r c => eq_ind_r (fun x => _ -> _ -> _ -> _ -> exists out, x = Ok out /\ _)
           (offcenter_crop_int_spec zero a cr cc r c) (offcenter_crop_int_centre zero a cr cc r c)).
Qed.
Print Assumptions C04_offcenter_crop_window_integer_centre.

Example C04_window_partly_outside :
  match offcenter_crop_int 0 (mkarr 3 3 (fun i j => 10 * i + j + 1)) (-1) 2 4 3 with
  | Ok o => arr_to_lists o | Raise _ => [] end
  = [[0; 0; 0]; [0; 0; 0]; [0; 0; 0]; [2; 3; 0]].
Proof. vm_compute. reflexivity. Qed.

(* C05 *)
Theorem C05_ceil_even_is_least_even : forall x,
  least_such (fun n => exists k, n = 2 * k) x (ceil_even x).
Proof. exact ceil_even_least. Qed.
Print Assumptions C05_ceil_even_is_least_even.

Theorem C05_ceil_odd_is_least_odd : forall x,
  least_such (fun n => exists k, n = 2 * k + 1) x (ceil_odd x).
Proof. exact ceil_odd_least. Qed.
Print Assumptions C05_ceil_odd_is_least_odd.

Theorem C05_pad_to_even_square_lossless : forall (A : Type) (zero : A) (a : arr A),
  0 <= nr a -> 0 <= nc a -> 0 < Z.max (nr a) (nc a) ->
  exists out n, pad_to_even_square zero a = Ok out /\ n mod 2 = 0 /\
    Z.max (nr a) (nc a) <= n <= Z.max (nr a) (nc a) + 1 /\
    is_recentred a n n zero out /\
    (forall i j, 0 <= i < nr a -> 0 <= j < nc a ->
       px out (i - nr a / 2 + n / 2) (j - nc a / 2 + n / 2) = px a i j).
Proof. exact (fun A => pad_to_even_square_spec). Qed.
Print Assumptions C05_pad_to_even_square_lossless.

Example C05_hypotheses_met : let a := mkarr 3 2 (fun i j => i * j) in
  0 <= nr a /\ 0 <= nc a /\ 0 < Z.max (nr a) (nc a).
Proof. cbn. lia. Qed.

(* C06 *)
Theorem C06_bin_downsample_block_means : forall a k, 0 < k -> 0 <= nr a -> 0 <= nc a ->
  exists out, bin_downsample a k = Ok out /\ nr out = nr a / k /\ nc out = nc a / k /\
  forall iy ix, 0 <= iy < nr a / k -> 0 <= ix < nc a / k ->
    px out iy ix = block_mean a k iy ix.
Proof. exact bin_downsample_blocks. Qed.
Print Assumptions C06_bin_downsample_block_means.

Theorem C06_bin_downsample_preserves_total : forall a k, 0 < k -> 0 <= nr a -> 0 <= nc a ->
  nr a mod k = 0 -> nc a mod k = 0 ->
  exists out, bin_downsample a k = Ok out /\ (total a = IZR (k * k) * total out)%R.
Proof. exact bin_downsample_total. Qed.
Print Assumptions C06_bin_downsample_preserves_total.

(* The documented requirement "size must be divisible by dsfac" is not enforced: a non-divisible
   array is accepted and loses flux. *)
Theorem C06_non_divisible_rejected_refuted :
  exists (a : arr R) k out, 0 < k /\ nr a mod k <> 0 /\ bin_downsample a k = Ok out /\
    (total a <> IZR (k * k) * total out)%R.
Proof. exact bin_nondiv_refuted. Qed.
Print Assumptions C06_non_divisible_rejected_refuted.

Example C06_hypotheses_met : let a := mkarr 6 4 (fun i j => IZR (i * j)) in
  0 < 2 /\ 0 <= nr a /\ nr a mod 2 = 0 /\ nc a mod 2 = 0.
Proof. cbn. repeat split; lia. Qed.

(* C07 *)
Theorem C07_create_axis_samples : forall N step ip, 0 < N -> (0 < step)%R ->
  exists ax, create_axis N step ip = Ok ax /\ length ax = Z.to_nat N /\
    forall k, 0 <= k < N ->
      nth (Z.to_nat k) ax 0%R =
      if (ip && (N mod 2 =? 0))%bool then ((IZR (k - N / 2) + / 2) * step)%R
      else (IZR (k - N / 2) * step)%R.
Proof. exact create_axis_spec. Qed.
Print Assumptions C07_create_axis_samples.

Theorem C07_create_axis_antisymmetric : forall N step ip ax,
  0 < N -> (0 < step)%R -> (ip = true \/ N mod 2 = 1) -> create_axis N step ip = Ok ax ->
  forall k, 0 <= k < N ->
   (nth (Z.to_nat k) ax 0 = - nth (Z.to_nat (N - 1 - k)) ax 0)%R.
Proof. exact create_axis_antisym. Qed.
Print Assumptions C07_create_axis_antisymmetric.

Theorem C07_radial_grid_is_distance_from_centre : forall N step ip ax xs ys,
  0 < N -> (0 < step)%R -> create_axis N step ip = Ok ax ->
  nr (radial_grid ax xs ys) = N /\ nc (radial_grid ax xs ys) = N /\
  forall i j, 0 <= i < N -> 0 <= j < N ->
    let off := if (ip && (N mod 2 =? 0))%bool then (/ 2)%R else 0%R in
    px (radial_grid ax xs ys) i j =
    sqrt (((IZR (j - N / 2) + off) * step / xs) ^ 2 + ((IZR (i - N / 2) + off) * step / ys) ^ 2)%R.
Proof. exact radial_grid_axis. Qed.
Print Assumptions C07_radial_grid_is_distance_from_centre.

(* C08 *)
Theorem C08_nextpow2_least_exponent : forall x, (x <> 0)%R ->
  (Rabs x <= powerRZ 2 (nextpow2 x))%R /\ (powerRZ 2 (nextpow2 x - 1) < Rabs x)%R /\
  forall q, (Rabs x <= powerRZ 2 q)%R -> (powerRZ 2 (q - 1) < Rabs x)%R -> q = nextpow2 x.
Proof. exact nextpow2_full. Qed.
Print Assumptions C08_nextpow2_least_exponent.

(* C09 *)
Theorem C09_allcomb_members : forall (A : Type) (args : list (list A)) t,
  In t (allcomb args) <-> Forall2 (fun x l => In x l) t args.
Proof. exact (fun A => allcomb_In). Qed.
Print Assumptions C09_allcomb_members.

Theorem C09_allcomb_count : forall (A : Type) (args : list (list A)),
  length (allcomb args) = fold_right (fun l n => (length l * n)%nat) 1%nat args.
Proof. exact (fun A => allcomb_length). Qed.
Print Assumptions C09_allcomb_count.

Theorem C09_allcomb_lexicographic_position : forall (A : Type) (args : list (list A)) ix t,
  Forall2 (fun '(i, x) l => nth_error l i = Some x) (combine ix t) args ->
  length ix = length args -> length t = length args ->
  (position args ix < length (allcomb args))%nat /\
  nth_error (allcomb args) (position args ix) = Some t.
Proof. exact (fun A => allcomb_position). Qed.
Print Assumptions C09_allcomb_lexicographic_position.

Example C09_case : allcomb [[1; 3; 5]; [-3; 8]]
  = [[1; -3]; [1; 8]; [3; -3]; [3; 8]; [5; -3]; [5; 8]].
Proof. reflexivity. Qed.
