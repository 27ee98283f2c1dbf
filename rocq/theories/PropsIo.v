(** Properties of the filter cache, of files and of the command line: C43 to C49. *)

From Coq Require Import List Bool Ascii String Lia Lra Arith ZArith Reals Floats.SpecFloat.
From Verif Require Import PyBase Text Json JsonThm DataIo DataIoThm DataIoJson FilterIo FilterIoThm Cli CliThm.
Import ListNotations.
Local Open Scope res_scope.

(** A format for three doubles, for the examples *)
Definition f2 : fl := S754_finite false 4503599627370496 (-51).
Definition x_wr (x : fl) : txt := if SFeqb x f1 then T "1.0" else if SFeqb x f2 then T "2.0" else T "0.0".
Definition x_rd (t : txt) : option fl := if teqb t (T "0.0") then Some f0 else if teqb t (T "1.0") then Some f1 else if teqb t (T "2.0") then Some f2 else None.
Definition x_fe (x : fl) : txt := T "+" ++ x_wr x.
Definition x_rdr (t : txt) : option fl := match t with [] => None | _ :: t' => x_rd t' end.
Definition x_rdc (t : txt) : option fc := if teqb t (T "+1.0+2.0j") then Some (f1, f2) else if teqb t (T "+0.0+1.0j") then Some (f0, f1) else None.

(** ** C43: filters *)

(** Whatever was accessed before, an access returns the filter of the library ... *)
Theorem C43_accesses : forall quo15 lib l before, 
  let s := snd (accesses quo15 lib before cinit) in
  (forall t n d, lib t n = Some d -> libf_ok d) ->
  fst (accesses quo15 lib l s) = map (direct quo15 lib) l
  /\ forall t n, match lib t n with
                 | None => direct quo15 lib (t, n) = Err AttributeError
                 | Some d => exists f, direct quo15 lib (t, n) = Ok f /\ is_filter quo15 n d f
                 end.
Proof.
  intros quo15 lib l before s Hok. split.
  - apply accesses_direct. apply accesses_inv. apply cinit_inv.
  - intros t n. unfold direct. cbn [fst snd]. destruct (lib t n) as [d|] eqn:E; [|reflexivity].
    destruct (load_ok quo15 t n d [] (Hok t n d E)) as (f & Hf & Hi). exists f. rewrite Hf. split; [reflexivity|exact Hi].
Qed.
Print Assumptions C43_accesses.

(** ... and the functions of the library are called in the first access only: as often
    as the filter has arrays *)
Theorem C43_first_access_only : forall quo15 lib, (forall t n d, lib t n = Some d -> libf_ok d) ->
  forall l t n d, lib t n = Some d ->
  ncalls (t, n) (calls (snd (accesses quo15 lib l cinit))) = if existsb (feqb (t, n)) l then S (List.length (l_values d)) else 0%nat.
Proof. intros quo15 lib Hok l t n d Hd. rewrite (accesses_calls quo15 lib Hok l cinit t n d Hd). cbn [cinit cached calls ncalls filter List.length Nat.add]. now rewrite andb_true_r. Qed.
Print Assumptions C43_first_access_only.

(** two filters with the same name *)
Definition x_lib (t : ftype) (n : txt) : option libf :=
  if teqb n (T "a") then Some match t with Fhankel => {| l_values := [T "j0"; T "j1"]; l_arrays := [[f1; f2]; [f0; f1]; [f1; f1]] |}
                                         | Ffourier => {| l_values := [T "sin"]; l_arrays := [[f2; f1]; [f2; f2]] |} end
  else None.
Lemma x_lib_ok : forall t n d, x_lib t n = Some d -> libf_ok d.
Proof.
  intros t n d H. unfold x_lib in H. destruct (teqb n (T "a")); [|discriminate H]. destruct t; injection H as <-; (split; [reflexivity|split]).
  - repeat constructor; cbn; intuition discriminate.
  - do 3 eexists. reflexivity.
  - repeat constructor; cbn; intuition discriminate.
  - do 3 eexists. reflexivity.
Qed.
(** so the function is called more than once: at most one call per access is false *)
Theorem C43_calls_refuted : exists lib : ftype -> txt -> option libf, (forall t n d, lib t n = Some d -> libf_ok d) /\
  forall quo15, exists t n, ncalls (t, n) (calls (snd (accesses quo15 lib [(t, n)] cinit))) = 3%nat.
Proof.
  exists x_lib. split; [exact x_lib_ok|]. intros quo15. exists Fhankel, (T "a").
  rewrite (C43_first_access_only quo15 x_lib x_lib_ok [(Fhankel, T "a")] Fhankel (T "a") _ eq_refl). reflexivity.
Qed.
Print Assumptions C43_calls_refuted.
Example C43_ex : map (fun r => match r with Ok f => (f_attr f (T "base"), f_attr f (T "j1"), f_attr f (T "sin")) | _ => (None, None, None) end)
  (fst (accesses (fun a _ => a) x_lib [(Fhankel, T "a"); (Ffourier, T "a"); (Fhankel, T "a")] cinit))
  = [(Some [f1; f2], Some [f1; f1], None); (Some [f2; f1], None, Some [f2; f2]); (Some [f1; f2], Some [f1; f1], None)].
Proof. reflexivity. Qed.

(** ** C44: filter files

    Partial: no file of a coefficient that the filter does not have is left from
    earlier, and the base has two points or more.  The factor is the one computed from
    the base; scripts/fdesign.py sets another one in its filters. *)
Theorem C44_round_trip_partial : forall quo15 wr rd p f g w w' x0 x1 r, f_attr f (T "base") = Some (x0 :: x1 :: r) -> attrs_ok wr rd f ->
  f_save g = f_save f ->
  (forall v, In v (f_coeff g) -> f_attr f v = None \/ ~ In v (T "base" :: f_coeff f) -> fget (ffile p (f_save f) v) w = None) ->
  (forall v, f_attr g v = None) ->
  tofile wr p f w = Ok w' ->
  exists h, fromfile quo15 rd p g w' = Ok h /\ f_name h = f_name g /\ f_save h = f_save f /\ f_coeff h = f_coeff g
  /\ f_attr h (T "base") = f_attr f (T "base")
  /\ (forall v, In v (f_coeff g) -> f_attr h v = if existsb (teqb v) (T "base" :: f_coeff f) then f_attr f v else None)
  /\ f_factor h = Some [quo15 x1 x0].
Proof. exact file_trip. Qed.
Print Assumptions C44_round_trip_partial.

Definition x_f : filt := set_attr (T "base") [f1; f2] (set_attr (T "j0") [f2; f0] (new_filter (T "n") None None)).
Lemma x_cell : forall v, v = f0 \/ v = f1 \/ v = f2 -> cell_ok x_rd x_wr v.
Proof. intros v [-> | [-> | ->]]; (split; [reflexivity|split; [discriminate|]]); intros c Hc; cbn in Hc; (repeat (destruct Hc as [<-|Hc]; [reflexivity|])); contradiction. Qed.
Lemma x_attrs : attrs_ok x_wr x_rd x_f.
Proof.
  intros v l x H Hx. cbn [x_f set_attr f_attr new_filter] in H. destruct (teqb v (T "base")); [|destruct (teqb v (T "j0")); [|discriminate H]].
  - injection H as <-. apply x_cell. destruct Hx as [<-|[<-|[]]]; auto.
  - injection H as <-. apply x_cell. destruct Hx as [<-|[<-|[]]]; auto.
Qed.
Example C44_ex : exists w' h, tofile x_wr (T "/p") x_f [] = Ok w' /\ fromfile (fun a _ => a) x_rd (T "/p") (new_filter (T "n") None None) w' = Ok h
  /\ f_attr h (T "base") = Some [f1; f2] /\ f_attr h (T "j0") = Some [f2; f0] /\ f_attr h (T "j1") = None.
Proof.
  eexists. 
  destruct (C44_round_trip_partial (fun a _ => a) x_wr x_rd (T "/p") x_f (new_filter (T "n") None None) [] _ f1 f2 [] eq_refl x_attrs eq_refl (fun _ _ _ => eq_refl) (fun _ => eq_refl) eq_refl)
    as (h & H1 & _ & _ & _ & H2 & H3 & _).
  exists h. split; [reflexivity|]. split; [exact H1|]. split; [exact H2|]. split.
  - rewrite (H3 (T "j0")) by (left; reflexivity). reflexivity.
  - rewrite (H3 (T "j1")) by (right; left; reflexivity). reflexivity.
Qed.

(** A file left by an earlier filter of the same name is read into the new filter. *)
Theorem C44_stale_refuted : forall quo15, exists wr rd p f g h w w' hd,
  attrs_ok wr rd f /\ attrs_ok wr rd h /\ f_save f = f_save h /\ f_attr f (T "j1") = None
  /\ tofile wr p h [] = Ok w /\ tofile wr p f w = Ok w' /\ fromfile quo15 rd p g w' = Ok hd /\ f_save g = f_save f /\ f_attr hd (T "j1") = Some [f1; f1].
Proof.
  intros quo15. exists x_wr, x_rd, (T "/p"), x_f, (new_filter (T "n") None None), (set_attr (T "j1") [f1; f1] x_f). do 3 eexists.
  split; [exact x_attrs|]. split.
  { intros v l x H Hx. cbn [set_attr f_attr] in H. destruct (teqb v (T "j1")); [|now apply (x_attrs v l x)]. injection H as <-. apply x_cell. destruct Hx as [<-|[<-|[]]]; auto. }
  split; [reflexivity|]. split; [reflexivity|]. split; [reflexivity|]. split; [vm_compute; reflexivity|]. split; [vm_compute; reflexivity|]. split; reflexivity.
Qed.
Print Assumptions C44_stale_refuted.
(** A filter with one base point is saved but cannot be loaded. *)
Theorem C44_short_refuted : forall quo15 wr rd p f w w', f_coeff f = [] -> (exists x, f_attr f (T "base") = Some [x]) -> attrs_ok wr rd f -> tofile wr p f w = Ok w' ->
  fromfile quo15 rd p f w' = Err IndexError.
Proof. exact file_short. Qed.
Print Assumptions C44_short_refuted.
Example C44_short_ex : exists f, f_coeff f = [] /\ (exists x, f_attr f (T "base") = Some [x]) /\ attrs_ok x_wr x_rd f /\ exists w', tofile x_wr (T "/p") f [] = Ok w'.
Proof.
  exists {| f_name := T "n"; f_save := T "n"; f_coeff := []; f_attr := fun v => if teqb v (T "base") then Some [f1] else None; f_factor := None |}.
  split; [reflexivity|]. split; [exists f1; reflexivity|]. split; [|eexists; reflexivity].
  intros v l x H Hx. cbn [f_attr] in H. destruct (teqb v (T "base")); [|discriminate H]. injection H as <-. apply x_cell. destruct Hx as [<-|[]]; auto.
Qed.

(** ** C45: the files of scripts/fdesign.py

    Partial: two shift values or more (see below), and the conditions of C44. *)
Theorem C45_round_trip_partial : forall quo15 wr rd we name f u p coeff w w' n m x0 x1 r, let g := new_filter (hd [] (split "." name)) None coeff in
  f_save f = hd [] (split "." name) -> f_attr f (T "base") = Some (x0 :: x1 :: r) -> attrs_ok wr rd f ->
  (forall v, In v (f_coeff g) -> f_attr f v = None \/ ~ In v (T "base" :: f_coeff f) -> fget (ffile p (f_save f) v) w = None) ->
  ~ In (T "full") (f_coeff g) ->
  (1 <= n)%nat -> (2 <= m)%nat -> full_ok n m u -> nums_ok rd we n m u ->
  save_filter wr we name f (Some u) p w = Ok w' ->
  exists h, load_filter quo15 rd name true p coeff w' = Ok (h, Some u)
  /\ f_attr h (T "base") = f_attr f (T "base")
  /\ (forall v, In v (f_coeff g) -> f_attr h v = if existsb (teqb v) (T "base" :: f_coeff f) then f_attr f v else None)
  /\ f_factor h = Some [quo15 x1 x0].
Proof. exact full_trip. Qed.
Print Assumptions C45_round_trip_partial.

(** With one shift value the file is written but cannot be read. *)
Theorem C45_one_shift_refuted : forall quo15 wr rd we name f u p coeff w w' n x0 x1 r, let g := new_filter (hd [] (split "." name)) None coeff in
  f_save f = hd [] (split "." name) -> f_attr f (T "base") = Some (x0 :: x1 :: r) -> attrs_ok wr rd f ->
  (forall v, In v (f_coeff g) -> f_attr f v = None \/ ~ In v (T "base" :: f_coeff f) -> fget (ffile p (f_save f) v) w = None) ->
  ~ In (T "full") (f_coeff g) ->
  (1 <= n)%nat -> full_ok n 1 u -> nums_ok rd we n 1 u ->
  save_filter wr we name f (Some u) p w = Ok w' -> load_filter quo15 rd name true p coeff w' = Err IndexError.
Proof. exact full_one_shift. Qed.
Print Assumptions C45_one_shift_refuted.

Definition x_full (m : nat) : full :=
  {| u_space := f1; u_shift := f0; u_min := f2; u_gs := [repeat f1 m]; u_gh := [firstn m [f0; f1]]; u_obj := [repeat f2 m]; u_mm := 1 |}.
Lemma x_full_ok : forall m, m = 1%nat \/ m = 2%nat -> full_ok 1 m (x_full m).
Proof.
  intros m H. assert (G : forall (l : list fl), List.length l = m -> matrix 1 m [l]) by (intros l Hl; split; [reflexivity|intros r [<-|[]]; exact Hl]).
  destruct H as [-> | ->]; (split; [now apply G|]; split; [now apply G|]; split; [now apply G|]; split; [reflexivity|]; split; [reflexivity|]; cbn; lia).
Qed.
Lemma x_full_nums : forall m, m = 1%nat \/ m = 2%nat -> nums_ok x_rd x_wr 1 m (x_full m).
Proof.
  intros m H r v Hr Hv. apply x_cell. assert (E0 : f0 = S754_zero false) by reflexivity.
  destruct H as [-> | ->]; vm_compute in Hr; unfold f0, f1, f2; (repeat (destruct Hr as [<-|Hr]; [cbn in Hv; intuition|])); contradiction.
Qed.
Example C45_ex : forall m, m = 1%nat \/ m = 2%nat -> exists w', save_filter x_wr x_wr (T "n.gz") x_f (Some (x_full m)) (T "/p") [] = Ok w'
  /\ load_filter (fun a _ => a) x_rd (T "n.gz") true (T "/p") None w' =
     if (m =? 1)%nat then Err IndexError else Ok (set_factor [f2] (set_attr (T "j0") [f2; f0] (set_attr (T "base") [f1; f2] (new_filter (T "n") None None))), Some (x_full m)).
Proof.
  intros m Hm.
  eexists. split; [reflexivity|]. destruct Hm as [-> | ->]; vm_compute; reflexivity.
Qed.

(** ** C46: grids *)
Theorem C46_points : forall a b n, (2 <= n)%nat -> a <> b ->
  let g := grid (ls2ar (LsTuple a b n)) in
  List.length g = n /\ (forall i, (i < n)%nat -> nth i g 0%R = (a + INR i * ((b - a) / (INR n - 1)))%R) /\ nth 0 g 0%R = a /\ nth (n - 1) g 0%R = b.
Proof. exact ls2ar_points. Qed.
Print Assumptions C46_points.
Example C46_ex : grid (ls2ar (LsTuple 1 2 3)) = [1; 3 / 2; 2]%R.
Proof.
  destruct (C46_points 1 2 3 ltac:(lia) ltac:(lra)) as (H1 & H2 & _).
  destruct (grid (ls2ar (LsTuple 1 2 3))) as [|a [|b [|c [|d l]]]]; try discriminate H1.
  pose proof (H2 0%nat ltac:(lia)) as K0. pose proof (H2 1%nat ltac:(lia)) as K1. pose proof (H2 2%nat ltac:(lia)) as K2. cbn [nth INR] in K0, K1, K2. rewrite K0, K1, K2.
  f_equal; [lra|]. f_equal; [lra|]. f_equal. lra.
Qed.
(** Equal ends give one point for every num. *)
Theorem C46_equal_ends_refuted : forall a n, grid (ls2ar (LsTuple a a n)) = [a].
Proof. intros a n. apply (ls2ar_one (LsTuple a a n)). now right. Qed.
Print Assumptions C46_equal_ends_refuted.

(** ** C47: data files *)
Theorem C47_text : forall fe pr rd_r rd_c rd date version, one_line date /\ contains (T "data") date = false -> one_line version /\ contains (T "data") version = false ->
  forall f x info w a b c, dshape x = [a; b; c] -> (0 < c)%nat -> data_ok x -> nd_cells fe rd_r rd_c x -> one_line info ->
  ends_with (T ".txt") f = true -> exists w', save_data fe pr date version f x info w = Ok w' /\ load_data rd_r rd_c rd f w' = Ok x.
Proof.
  intros fe pr rd_r rd_c rd date version Hd Hv f x info w a b c Hs Hc Hx Hn Hi Hf.
  destruct (text_saves fe pr date version f x info w a b c Hs Hc Hf) as [w' Hw]. exists w'. split; [exact Hw|].
  exact (text_trip fe pr rd_r rd_c rd date version Hd Hv f x info w w' a b c Hs Hc Hx Hn Hi Hf Hw).
Qed.
Print Assumptions C47_text.

Theorem C47_json_real : forall fe pr rd_r rd_c rd date version f (a : nd fl) info w n m c, shp a = [n; m; c] -> (0 < n)%nat -> (0 < m)%nat -> nd_ok a -> jnums pr rd (Real a) ->
  ends_with (T ".txt") f = false -> ends_with (T ".json") f = true ->
  exists w', save_data fe pr date version f (Real a) info w = Ok w' /\ load_data rd_r rd_c rd f w' = Ok (Real a).
Proof.
  intros fe pr rd_r rd_c rd date version f a info w n m c Hs Hn Hm Ha Hj Ht Hf.
  destruct (json_saves fe pr date version f (Real a) info w n m c Hs Ht Hf) as [w' Hw]. exists w'. split; [exact Hw|].
  exact (json_trip_real fe pr rd_r rd_c rd date version f a info w w' n m c Hs Hn Hm Ha Hj Ht Hf Hw).
Qed.
Print Assumptions C47_json_real.

(** Complex values whose imaginary parts are finite come back as the same numbers; the sign of a zero may change. *)
Theorem C47_json_complex : forall fe pr rd_r rd_c rd date version f (a : nd fc) info w n m c, shp a = [n; m; c] -> (0 < n)%nat -> (0 < m)%nat -> nd_ok a -> jnums pr rd (Cplx a) ->
  ends_with (T ".txt") f = false -> ends_with (T ".json") f = true -> (forall z, In z (vals a) -> fin (snd z)) ->
  exists w' v, save_data fe pr date version f (Cplx a) info w = Ok w' /\ load_data rd_r rd_c rd f w' = Ok (Cplx {| shp := shp a; vals := v |})
  /\ List.Forall2 fceq v (vals a)
  /\ ((forall z, In z (vals a) -> fst z <> S754_zero true /\ snd z <> S754_zero true) -> v = vals a).
Proof.
  intros fe pr rd_r rd_c rd date version f a info w n m c Hs Hn Hm Ha Hj Ht Hf Hfin.
  destruct (json_saves fe pr date version f (Cplx a) info w n m c Hs Ht Hf) as [w' Hw]. exists w', (map (fun z => recomb (fst z) (snd z)) (vals a)). split; [exact Hw|]. split.
  - exact (json_trip_cplx fe pr rd_r rd_c rd date version f a info w w' n m c Hs Hn Hm Ha Hj Ht Hf Hw).
  - clear - Hfin. induction (vals a) as [|[x y] l IH]; [split; [constructor|reflexivity]|].
    destruct IH as [IH1 IH2]; [intros z Hz; apply Hfin; now right|]. cbn [map fst snd]. split.
    + constructor; [|exact IH1]. apply recomb_finite. exact (Hfin (x, y) (or_introl eq_refl)).
    + intros H. f_equal; [|apply IH2; intros z Hz; apply H; now right]. destruct (H (x, y) (or_introl eq_refl)). apply recomb_exact; try assumption. exact (Hfin (x, y) (or_introl eq_refl)).
Qed.
Print Assumptions C47_json_complex.

Definition x_real : nd fl := {| shp := [1; 2; 2]%nat; vals := [f0; f1; f2; f1] |}.
Definition x_cplx : nd fc := {| shp := [2; 1; 1]%nat; vals := [(f1, f2); (f0, f1)] |}.
Lemma x_num : forall v, v = f0 \/ v = f1 \/ v = f2 -> num_ok x_wr x_rd v.
Proof. intros v [-> | [-> | ->]]; repeat split; try discriminate. Qed.
Example C47_ex : one_line (T "d") /\ contains (T "data") (T "d") = false
  /\ data_ok (Real x_real) /\ nd_cells x_fe x_rdr x_rdc (Real x_real) /\ data_ok (Cplx x_cplx) /\ nd_cells x_fe x_rdr x_rdc (Cplx x_cplx)
  /\ jnums x_wr x_rd (Real x_real) /\ jnums x_wr x_rd (Cplx x_cplx) /\ (forall z, In z (vals x_cplx) -> fin (snd z)).
Proof.
  split; [split; cbn; intuition discriminate|]. split; [reflexivity|]. split; [reflexivity|]. split.
  { intros v Hv. split; [cbn in Hv; repeat (destruct Hv as [<-|Hv]; [reflexivity|]); contradiction|]. split; [discriminate|].
    intros c Hc. cbn in Hv. repeat (destruct Hv as [<-|Hv]; [cbn in Hc; (repeat (destruct Hc as [<-|Hc]; [reflexivity|])); contradiction|]). contradiction. }
  split; [reflexivity|]. split.
  { intros v Hv. split; [cbn in Hv; repeat (destruct Hv as [<-|Hv]; [reflexivity|]); contradiction|]. split; [discriminate|].
    intros c Hc. cbn in Hv. repeat (destruct Hv as [<-|Hv]; [cbn in Hc; (repeat (destruct Hc as [<-|Hc]; [reflexivity|])); contradiction|]). contradiction. }
  split; [|split].
  - intros v Hv. apply x_num. cbn in Hv. intuition.
  - intros v Hv. cbn in Hv. destruct Hv as [<-|[<-|[]]]; split; apply x_num; cbn; auto.
  - intros z Hz. cbn in Hz. destruct Hz as [<-|[<-|[]]]; reflexivity.
Qed.

(** An infinite imaginary part destroys the real part in the JSON format. *)
Theorem C47_inf_refuted : forall fe rd_r rd_c date version f pr rd a s, num_ok pr rd a -> num_ok pr rd (S754_infinity s) ->
  ends_with (T ".txt") f = false -> ends_with (T ".json") f = true ->
  exists w', save_data fe pr date version f (Cplx {| shp := [1; 1; 1]%nat; vals := [(a, S754_infinity s)] |}) [] [] = Ok w'
  /\ load_data rd_r rd_c rd f w' = Ok (Cplx {| shp := [1; 1; 1]%nat; vals := [(S754_nan, S754_infinity s)] |}).
Proof.
  intros fe rd_r rd_c date version f pr rd a s Ha Hi Ht Hf.
  destruct (json_saves fe pr date version f (Cplx {| shp := [1; 1; 1]%nat; vals := [(a, S754_infinity s)] |}) [] [] 1 1 1 eq_refl Ht Hf) as [w' Hw]. exists w'. split; [exact Hw|].
  rewrite (json_trip_cplx fe pr rd_r rd_c rd date version f {| shp := [1; 1; 1]%nat; vals := [(a, S754_infinity s)] |} [] [] w' 1 1 1 eq_refl Nat.lt_0_1 Nat.lt_0_1 eq_refl) by (try assumption; intros v [<-|[]]; split; assumption).
  cbn [shp vals map fst snd]. now rewrite recomb_inf.
Qed.
Print Assumptions C47_inf_refuted.
(** Empty arrays: an array without columns cannot be saved as text, and in JSON an array without rows loses its shape. *)
Theorem C47_empty_refuted : forall fe pr rd_r rd_c rd date version,
  (forall f x info w a b, dshape x = [a; b; O] -> ends_with (T ".txt") f = true -> save_data fe pr date version f x info w = Err ValueError)
  /\ forall f m c info w w', ends_with (T ".txt") f = false -> ends_with (T ".json") f = true ->
     save_data fe pr date version f (Real {| shp := [O; m; c]; vals := [] |}) info w = Ok w' ->
     load_data rd_r rd_c rd f w' = Ok (Real {| shp := [O]; vals := [] |}).
Proof. intros fe pr rd_r rd_c rd date version. split; [apply text_empty|apply json_shape_lost]. Qed.
Print Assumptions C47_empty_refuted.

(** ** C48: input files *)
Theorem C48_round_trip : forall V (pr : V -> txt) rd f d w, ends_with (T ".json") f = true -> d <> [] -> jok pr rd (JObj d) ->
  exists w', save_input pr f d w = Ok w' /\ load_input rd f w' = Ok (JObj d).
Proof.
  intros V pr rd f d w Hf Hd Hok. destruct (save_input pr f d w) as [w'|e] eqn:E; [|unfold save_input in E; rewrite Hf in E; discriminate E].
  exists w'. split; [reflexivity|]. exact (input_trip pr rd f d w w' Hd Hok E).
Qed.
Print Assumptions C48_round_trip.
(** The empty dictionary is saved, but the file cannot be loaded. *)
Theorem C48_empty_refuted : forall V (pr : V -> txt) (rd : txt -> option V) f w, ends_with (T ".json") f = true ->
  exists w', save_input pr f [] w = Ok w' /\ load_input rd f w' = Err ValueError.
Proof. intros V pr rd f w H. now apply input_empty. Qed.
Print Assumptions C48_empty_refuted.
Definition x_dict : list (txt * json fl) :=
  [(T "src", JArr [JNum f0; JArr [JNum f1; JNum f2]; JNum f0]); (T "ht", JStr (T "a ""b"" \ c")); (T "xdirect", JBool true); (T "opt", JNull); (T "htarg", JObj [(T "k", JArr []); (T "m", JObj [])])].
Example C48_ex : jok x_wr x_rd (JObj x_dict).
Proof.
  apply jok_obj. split; [repeat constructor; cbn; intuition discriminate|].
  intros x Hx. cbn in Hx. repeat (destruct Hx as [<-|Hx]; [cbn; repeat split; try discriminate; try (repeat constructor; cbn; intuition discriminate)|]). contradiction.
Qed.

(** ** C49: the command line

    For every routine, input and output file: the input is loaded, the routine is called
    with it and squeeze=False, and its result is saved if and only if an output file is
    named; the four kinds of errors are returned. *)
Theorem C49_runs : forall fe pr rd date version call prog r i (o : option txt) w, In r choices -> plain i -> (forall f, o = Some f -> plain f) ->
  main fe pr rd date version call None (prog :: r :: i :: match o with Some f => [f] | None => [] end) w =
  match computed rd r i w with
  | Err e => (end_of (Err e), [], w)
  | Ok m =>
    let kw := sq_false m in
    match call r kw with
    | Err e => (end_of (Err e), [EvCalled r kw], w)
    | Ok d =>
      match o with
      | None | Some [] => (Returns None, [EvCalled r kw; EvPrint d], w)
      | Some f => match save_data fe pr date version f d (info_text r i) w with
                  | Ok w' => (Returns None, [EvCalled r kw], w')
                  | Err e => (end_of (Err e), [EvCalled r kw], w)
                  end
      end
    end
  end.
Proof. exact main_normal. Qed.
Print Assumptions C49_runs.
(** For all argument lists: at most one call, of one of the four routines, with the entries of an input file except that squeeze is False. *)
Theorem C49_calls : forall fe pr rd date version call args argv w out evs w', main fe pr rd date version call args argv w = (out, evs, w') ->
  (List.length (filter (fun e => match e with EvCalled _ _ => true | _ => false end) evs) <= 1)%nat
  /\ forall r kw, In (EvCalled r kw) evs -> In r choices /\ kw_get (T "squeeze") kw = Some (JBool false)
     /\ exists i m, load_input rd i w = Ok (JObj m) /\ forall k, k <> T "squeeze" -> kw_get k kw = kw_get k m.
Proof. exact main_calls. Qed.
Print Assumptions C49_calls.
(** For all argument lists: files change only by saving the result of the routine under a name of the argument list. *)
Theorem C49_writes : forall fe pr rd date version call args argv w out evs w', main fe pr rd date version call args argv w = (out, evs, w') ->
  w' = w \/ exists r i f kw d, f <> [] /\ In (EvCalled r kw) evs /\ call r kw = Ok d /\ save_data fe pr date version f d (info_text r i) w = Ok w' /\ out = Returns None
            /\ In f (match args with None => tl argv | Some l => l end).
Proof. exact main_writes. Qed.
Print Assumptions C49_writes.
(** For all argument lists: input errors are returned and never raised; other errors are raised and never returned. *)
Theorem C49_errors : forall fe pr rd date version call args argv w out evs w', main fe pr rd date version call args argv w = (out, evs, w') ->
  match out with
  | Returns None => True
  | Returns (Some e) => In e [AttributeError; TypeError; ValueError; FileNotFound]
  | Raises e => ~ In e [AttributeError; TypeError; ValueError; FileNotFound]
  | SysExit n => evs = [] /\ w' = w
  end.
Proof.
  intros fe pr rd date version call args argv w out evs w' H. pose proof (main_errors fe pr rd date version call args argv w out evs w' H) as G.
  destruct out as [[e|]|e|n]; [|exact G| |exact G]; destruct e; cbn in *; try discriminate G; intuition discriminate.
Qed.
Print Assumptions C49_errors.
(** For all argument lists that are not rejected: the version, the report or the short description is shown
    if and only if it is asked for, in this order, and then nothing is computed or written. *)
Theorem C49_informs : forall fe pr rd date version call args argv w out evs w', main fe pr rd date version call args argv w = (out, evs, w') ->
  let l := match args with None => tl argv | Some l => l end in (forall n, out <> SysExit n) ->
  (asks l (T "--version") -> shows out evs w w' EvVersion) /\
  (~ asks l (T "--version") -> asks l (T "--report") -> shows out evs w w' EvReport) /\
  (~ asks l (T "--version") -> ~ asks l (T "--report") -> (List.length argv < 3)%nat -> shows out evs w w' EvInfo) /\
  (~ asks l (T "--version") -> ~ asks l (T "--report") -> (3 <= List.length argv)%nat -> ~ In EvVersion evs /\ ~ In EvReport evs /\ ~ In EvInfo evs).
Proof. exact main_informs. Qed.
Print Assumptions C49_informs.
(** An explicit argument list is ignored if the script itself was started without arguments. *)
Theorem C49_explicit_refuted : forall fe pr rd date version call prog r i w, In r choices -> plain i ->
  main fe pr rd date version call (Some [r; i]) [prog] w = (Returns None, [EvInfo], w).
Proof. exact main_explicit. Qed.
Print Assumptions C49_explicit_refuted.

Definition x_fs : fs := [(T "/in.json", input_text x_wr x_dict)].
Definition x_call (r : txt) (kw : list (txt * json fl)) : res data := if teqb r (T "loop") then Err FileNotFound else Ok (Real x_real).
Example C49_ex : exists w', main x_fe x_wr x_rd (T "d") (T "v") x_call None [T "empymod"; T "dipole"; T "/in.json"; T "/out.json"] x_fs = (Returns None, [EvCalled (T "dipole") (x_dict ++ [(T "squeeze", JBool false)])], w')
  /\ fget (T "/out.json") w' <> None
  /\ main x_fe x_wr x_rd (T "d") (T "v") x_call None [T "empymod"; T "loop"; T "/in.json"] x_fs = (Returns (Some FileNotFound), [EvCalled (T "loop") (x_dict ++ [(T "squeeze", JBool false)])], x_fs)
  /\ main x_fe x_wr x_rd (T "d") (T "v") x_call None [T "empymod"; T "--rep"; T "loop"] x_fs = (Returns None, [EvReport], x_fs)
  /\ main x_fe x_wr x_rd (T "d") (T "v") x_call None [T "empymod"; T "gpr"; T "/in.json"] x_fs = (SysExit 2, [], x_fs).
Proof. eexists. split; [vm_compute; reflexivity|]. split; [vm_compute; discriminate|]. split; [vm_compute; reflexivity|]. split; vm_compute; reflexivity. Qed.
