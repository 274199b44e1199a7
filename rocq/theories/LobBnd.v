(** Model of src/lob_bnd.c in exact real arithmetic.
    A call's arrays that are written (b, br, bs, a) are parts of one memory w, given by their
    offsets; the arrays lob_bnd_data (d, dr, ds, dt) and u are read only. *)
From Verif Require Import Base Poly PolyImpSyntax PolyImp PolyGll PolyQuad.
From Coq Require Import Reals.
Open Scope R_scope.

(** w[i] += v. *)
Definition acc (w : arr) (i : nat) (v : R) : res arr := x <- rd w i ;; wr w i (x + v).

(** lob_bnd_size (lob_bnd.h:64-65). *)
Definition lob_bnd_size (n m : nat) : nat := (m + 3 * n * (2 * m + 1))%nat.

(** lob_bnd_setup (lob_bnd.c:73-125).  z, Q, h, lb, lbnp are parts of data; of the allocated work
    space pl,dl are one array, pr,dr another one, p and gll_data two more, initially 0 (no result
    depends on that).  PI is the number pi.  m >= 2. *)
Definition lob_bnd_setup (nodes_n : arr -> nat -> res arr) (data : arr) (n m : nat) : res arr :=
  let nm := (n * m)%nat in
  let z := 0%nat in let Q := (z + n)%nat in let h := (Q + 2 * n)%nat in
  let lb := (h + m)%nat in let lbnp := (lb + 2 * nm)%nat in
  '(lag, gll_data) <- gll_lag_setup nodes_n (repeat 0 (gll_lag_size n)) n ;;
  match lag with
  | None => UB
  | Some lag =>
  data <- lobatto_quad nodes_n data Q n ;;
  data <- foldM (fun data i =>
      q <- rd data (Q + i) ;;
      data <- wr data (Q + 2 * i) (q / 2) ;;
      q <- rd data (Q + 2 * i) ;; zi <- rd data (z + i) ;;
      wr data (Q + (2 * i + 1)) (3 * q * zi)) (rev (seq 0 n)) data ;;
  data <- wr data h (-1) ;;
  data <- wr data (h + (m - 1)) 1 ;;
  data <- foldM (fun data j =>
      wr data (h + j) (cos (INR (m - 1 - j) * PI / INR (m - 1)))) (seq 1 (m - 2)) data ;;
  data <- foldM (fun data i =>
      let v := if (i =? 0)%nat then 1 else 0 in
      data <- wr data (lb + (i * m + 0) * 2) v ;;
      data <- wr data (lb + ((i * m + 0) * 2 + 1)) v ;;
      let v := if (i =? n - 1)%nat then 1 else 0 in
      data <- wr data (lb + (i * m + (m - 1)) * 2) v ;;
      wr data (lb + ((i * m + (m - 1)) * 2 + 1)) v) (seq 0 n) data ;;
  h0 <- rd data h ;; h1 <- rd data (h + 1) ;;
  '(pl, gll_data) <- lag (repeat 0 (2 * n)) gll_data n 1%nat ((h0 + h1) / 2) ;;
  '(data, _, _, _, _) <- foldM (fun '(data, pl, pr, p, gll_data) j =>
      x <- rd data (h + j) ;;
      hl <- rd data (h + (j - 1)) ;; hr <- rd data (h + (j + 1)) ;;
      let xl := (x + hl) / 2 in let xr := (x + hr) / 2 in
      '(pr, gll_data) <- lag pr gll_data n 1%nat xr ;;
      '(p, gll_data) <- lag p gll_data n 0%nat x ;;
      data <- foldM (fun data i =>
          pli <- rd pl i ;; dli <- rd pl (n + i) ;;
          pri <- rd pr i ;; dri <- rd pr (n + i) ;; pi <- rd p i ;;
          let cl := pli + (x - xl) * dli in
          let cr := pri + (x - xr) * dri in
          let '(lo, up) := if Rlt_dec cl cr then (cl, cr) else (cr, cl) in
          let lo := if Rlt_dec pi lo then pi else lo in
          let up := if Rlt_dec up pi then pi else up in
          data <- wr data (lb + (i * m + j) * 2) lo ;;
          wr data (lb + ((i * m + j) * 2 + 1)) up) (seq 0 n) data ;;
      Ok (data, pr, pr, p, gll_data)) (seq 1 (m - 2)) (data, pl, repeat 0 (2 * n), repeat 0 n, gll_data) ;;
  foldM (fun data i =>
      data <- wr data (lbnp + 4 * i) 0 ;; data <- wr data (lbnp + (4 * i + 1)) 0 ;;
      data <- wr data (lbnp + (4 * i + 2)) 0 ;; data <- wr data (lbnp + (4 * i + 3)) 0 ;;
      f <- rd data (lb + 2 * i) ;;
      data <- (if Rlt_dec f 0 then wr data (lbnp + 4 * i) f else wr data (lbnp + (4 * i + 1)) f) ;;
      f <- rd data (lb + (2 * i + 1)) ;;
      if Rlt_dec f 0 then wr data (lbnp + (4 * i + 2)) f else wr data (lbnp + (4 * i + 3)) f) (seq 0 nm) data
  end.

(** lob_bnd_fst (lob_bnd.c:127-144). *)
Definition lob_bnd_fst (w : arr) (b : nat) (d : arr) (z Q h lb n m : nat) (u : arr) (uo : nat) : res arr :=
  '(a0, a1) <- foldM (fun '(a0, a1) i =>
      q0 <- rd d (Q + 2 * i) ;; ui <- rd u (uo + i) ;; q1 <- rd d (Q + (2 * i + 1)) ;;
      Ok (a0 + q0 * ui, a1 + q1 * ui)) (seq 0 n) (0, 0) ;;
  w <- foldM (fun w j =>
      hj <- rd d (h + j) ;;
      w <- wr w (b + 2 * j) (a0 + a1 * hj) ;;
      wr w (b + (2 * j + 1)) (a0 + a1 * hj)) (seq 0 m) w ;;
  '(w, _) <- foldM (fun '(w, lb) i =>
      ui <- rd u (uo + i) ;; zi <- rd d (z + i) ;;
      let wt := ui - (a0 + a1 * zi) in
      if Rle_dec 0 wt then
        foldM (fun '(w, lb) j =>
          l0 <- rd d lb ;; l1 <- rd d (lb + 1) ;;
          w <- acc w (b + 2 * j) (wt * l0) ;; w <- acc w (b + (2 * j + 1)) (wt * l1) ;;
          Ok (w, (lb + 2)%nat)) (seq 0 m) (w, lb)
      else
        foldM (fun '(w, lb) j =>
          l0 <- rd d lb ;; l1 <- rd d (lb + 1) ;;
          w <- acc w (b + 2 * j) (wt * l1) ;; w <- acc w (b + (2 * j + 1)) (wt * l0) ;;
          Ok (w, (lb + 2)%nat)) (seq 0 m) (w, lb)) (seq 0 n) (w, lb) ;;
  Ok w.

(** lob_bnd_ext (lob_bnd.c:146-196).  In the last part the state is w, b, br, lbnp. *)
Definition lob_bnd_ext (w : arr) (b_ : nat) (d : arr) (z Q h lbnp n m br_ mr a : nat) : res arr :=
  w <- foldM (fun w i => w <- wr w (a + (2 * i + 1)) 0 ;; wr w (a + 2 * i) 0) (seq 0 mr) w ;;
  '(w, _) <- foldM (fun '(w, br) j =>
      q0 <- rd d (Q + 2 * j) ;; q1 <- rd d (Q + (2 * j + 1)) ;;
      foldM (fun '(w, br) i =>
        b0 <- rd w br ;; b1 <- rd w (br + 1) ;;
        let t := (b0 + b1) / 2 in
        w <- acc w (a + 2 * i) (q0 * t) ;; w <- acc w (a + (2 * i + 1)) (q1 * t) ;;
        Ok (w, (br + 2)%nat)) (seq 0 mr) (w, br)) (seq 0 n) (w, br_) ;;
  '(w, _) <- foldM (fun '(w, b) i =>
      a0 <- rd w (a + 2 * i) ;; a1 <- rd w (a + (2 * i + 1)) ;;
      foldM (fun '(w, b) k =>
        hk <- rd d (h + k) ;;
        w <- wr w b (a0 + a1 * hk) ;; w <- wr w (b + 1) (a0 + a1 * hk) ;;
        Ok (w, (b + 2)%nat)) (seq 0 m) (w, b)) (seq 0 mr) (w, b_) ;;
  '(w, _, _) <- foldM (fun '(w, br, lbnp) j =>
      zj <- rd d (z + j) ;;
      '(w, _, br) <- foldM (fun '(w, b, br) i =>
          t0 <- rd w (a + 2 * i) ;; t1 <- rd w (a + (2 * i + 1)) ;;
          let t := t0 + t1 * zj in
          v <- rd w br ;; let br := (br + 1)%nat in let w0 := v - t in
          v <- rd w br ;; let br := (br + 1)%nat in let w1 := v - t in
          let sel (f g : R -> R -> R -> R -> R) :=
            foldM (fun '(w, b) k =>
              l0 <- rd d (lbnp + 4 * k) ;; l1 <- rd d (lbnp + (4 * k + 1)) ;;
              l2 <- rd d (lbnp + (4 * k + 2)) ;; l3 <- rd d (lbnp + (4 * k + 3)) ;;
              w <- acc w b (f l0 l1 l2 l3) ;; let b := (b + 1)%nat in
              w <- acc w b (g l0 l1 l2 l3) ;; let b := (b + 1)%nat in
              Ok (w, b)) (seq 0 m) (w, b) in
          '(w, b) <-
            (if Rle_dec 0 w0 then
               sel (fun l0 l1 l2 l3 => w0 * l1 + w1 * l0) (fun l0 l1 l2 l3 => w1 * l3 + w0 * l2)
             else if Rle_dec w1 0 then
               sel (fun l0 l1 l2 l3 => w0 * l3 + w1 * l2) (fun l0 l1 l2 l3 => w1 * l1 + w0 * l0)
             else
               sel (fun l0 l1 l2 l3 => w0 * l3 + w1 * l0) (fun l0 l1 l2 l3 => w1 * l3 + w0 * l0)) ;;
          Ok (w, b, br)) (seq 0 mr) (w, b_, br) ;;
      Ok (w, br, (lbnp + 4 * m)%nat)) (seq 0 n) (w, br_, lbnp) ;;
  Ok w.

(** lob_bnd_lin_1 (lob_bnd.c:198-204). *)
Fixpoint lob_bnd_lin_1 (w : arr) (b : nat) (d : arr) (n m : nat) (u : arr) (uo un : nat) : res arr :=
  match un with
  | O => Ok w
  | S un =>
      let z := 0%nat in let Q := (z + n)%nat in let h := (Q + 2 * n)%nat in let lb := (h + m)%nat in
      w <- lob_bnd_fst w b d z Q h lb n m u uo ;;
      lob_bnd_lin_1 w (b + 2 * m) d n m u (uo + n) un
  end.

(** lob_bnd_lin_2 (lob_bnd.c:207-223). *)
Fixpoint lob_bnd_lin_2 (w : arr) (b : nat) (dr : arr) (nr mr : nat) (ds : arr) (ns ms : nat)
                       (u : arr) (uo un work : nat) : res arr :=
  match un with
  | O => Ok w
  | S un =>
      let mrs := (mr * ms)%nat in
      let zr := 0%nat in let Qr := (zr + nr)%nat in let hr := (Qr + 2 * nr)%nat in let lb_r := (hr + mr)%nat in
      let zs := 0%nat in let Qs := (zs + ns)%nat in let hs := (Qs + 2 * ns)%nat in
      let lbnp_s := (hs + ms + 2 * ns * ms)%nat in
      let a := work in let br := (a + 2 * mr)%nat in
      '(w, _, uo) <- foldM (fun '(w, br_, uo) (_ : nat) =>
          w <- lob_bnd_fst w br_ dr zr Qr hr lb_r nr mr u uo ;;
          Ok (w, (br_ + 2 * mr)%nat, (uo + nr)%nat)) (seq 0 ns) (w, br, uo) ;;
      w <- lob_bnd_ext w b ds zs Qs hs lbnp_s ns ms br mr a ;;
      lob_bnd_lin_2 w (b + 2 * mrs) dr nr mr ds ns ms u uo un work
  end.

(** lob_bnd_lin_3 (lob_bnd.c:226-246). *)
Fixpoint lob_bnd_lin_3 (w : arr) (b : nat) (dr : arr) (nr mr : nat) (ds : arr) (ns ms : nat) (dt : arr) (nt mt : nat)
                       (u : arr) (uo un work : nat) : res arr :=
  match un with
  | O => Ok w
  | S un =>
      let nst := (ns * nt)%nat in let mrst := (mr * ms * mt)%nat in let mrs := (mr * ms)%nat in let mr_ns := (mr * ns)%nat in
      let zr := 0%nat in let Qr := (zr + nr)%nat in let hr := (Qr + 2 * nr)%nat in let lb_r := (hr + mr)%nat in
      let zs := 0%nat in let Qs := (zs + ns)%nat in let hs := (Qs + 2 * ns)%nat in
      let lbnp_s := (hs + ms + 2 * ns * ms)%nat in
      let zt := 0%nat in let Qt := (zt + nt)%nat in let ht := (Qt + 2 * nt)%nat in
      let lbnp_t := (ht + mt + 2 * nt * mt)%nat in
      let a := work in let bs := (a + 2 * mr * ms)%nat in
      '(w, _, uo) <- foldM (fun '(w, br_, uo) (_ : nat) =>
          w <- lob_bnd_fst w br_ dr zr Qr hr lb_r nr mr u uo ;;
          Ok (w, (br_ + 2 * mr)%nat, (uo + nr)%nat)) (seq 0 nst) (w, b, uo) ;;
      '(w, _, _) <- foldM (fun '(w, br_, bs_) (_ : nat) =>
          w <- lob_bnd_ext w bs_ ds zs Qs hs lbnp_s ns ms br_ mr a ;;
          Ok (w, (br_ + 2 * mr_ns)%nat, (bs_ + 2 * mrs)%nat)) (seq 0 nt) (w, b, bs) ;;
      w <- lob_bnd_ext w b dt zt Qt ht lbnp_t nt mt bs mrs a ;;
      lob_bnd_lin_3 w (b + 2 * mrst) dr nr mr ds ns ms dt nt mt u uo un work
  end.

(** minmax (lob_bnd.c:248-256); m >= 1. *)
Definition minmax (w : arr) (b m : nat) : res (R * R) :=
  mn <- rd w b ;; mx <- rd w (b + 1) ;;
  '(mn, mx, _) <- foldM (fun '(mn, mx, b) (_ : nat) =>
      b0 <- rd w b ;; b1 <- rd w (b + 1) ;;
      Ok (if Rlt_dec b0 mn then b0 else mn, if Rgt_dec b1 mx then b1 else mx, (b + 2)%nat))
    (seq 0 (m - 1)) (mn, mx, (b + 2)%nat) ;;
  Ok (mn, mx).

(** lob_bnd_1, lob_bnd_2, lob_bnd_3 (lob_bnd.c:259-293): the bounds and the work array. *)
Definition lob_bnd_1 (d : arr) (n m : nat) (u : arr) (uo : nat) (work : arr) : res (R * R * arr) :=
  work <- lob_bnd_lin_1 work 0 d n m u uo 1 ;;
  r <- minmax work 0 m ;; Ok (r, work).
Definition lob_bnd_2 (dr : arr) (nr mr : nat) (ds : arr) (ns ms : nat) (u : arr) (uo : nat) (work : arr) : res (R * R * arr) :=
  let m := (mr * ms)%nat in
  work <- lob_bnd_lin_2 work 0 dr nr mr ds ns ms u uo 1 (0 + 2 * m) ;;
  r <- minmax work 0 m ;; Ok (r, work).
Definition lob_bnd_3 (dr : arr) (nr mr : nat) (ds : arr) (ns ms : nat) (dt : arr) (nt mt : nat)
                     (u : arr) (uo : nat) (work : arr) : res (R * R * arr) :=
  let m := (mr * ms * mt)%nat in
  work <- lob_bnd_lin_3 work 0 dr nr mr ds ns ms dt nt mt u uo 1 (0 + 2 * m) ;;
  r <- minmax work 0 m ;; Ok (r, work).
