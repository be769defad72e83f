s=open('model.ml').read()
fast='''
let f_inf = max_int / 4
let f_enc c = 2 * c.cc + (if c.cs then 0 else 1)
let f_add a b = if a >= f_inf || b >= f_inf then f_inf else (a lor 1 - 1) + (b lor 1 - 1) + (a land b land 1)
let f_close n m =
  for k = 0 to n-1 do for i = 0 to n-1 do let a = m.(i*n+k) in if a < f_inf then for j = 0 to n-1 do
    let v = f_add a m.(k*n+j) in if v < m.(i*n+j) then m.(i*n+j) <- v done done done
let f_mat dim z =
  let n = List.fold_left (fun n c -> max n (1 + max c.ci c.cj)) (max dim 1) z in
  let m = Array.make (n*n) f_inf in
  for i = 0 to n-1 do m.(i*n+i) <- 1 done;
  for i = 1 to min dim n - 1 do m.(i) <- 1 done;
  List.iter (fun c -> let v = f_enc c in let p = c.ci*n+c.cj in if v < m.(p) then m.(p) <- v) z;
  n, m
let f_bad n m = let b = ref false in for i = 0 to n-1 do if m.(i*n+i) < 1 then b := true done; !b
let f_empty dim z = let n, m = f_mat dim z in f_close n m; f_bad n m
let f_norm dim z =
  let n, m = f_mat dim z in f_close n m;
  if f_bad n m then None else begin
    (* greedy removal *)
    let w = Array.copy m in
    for i = 0 to n-1 do for j = 0 to n-1 do if i <> j && w.(i*n+j) < f_inf && not (i = 0 && j < dim && w.(j) = 1) then begin
      let old = w.(i*n+j) in
      w.(i*n+j) <- (if i = 0 && j < dim then 1 else f_inf);
      let c = Array.copy w in f_close n c;
      if c.(i*n+j) > old then w.(i*n+j) <- old end done done;
    let r = ref [] in
    for i = n-1 downto 0 do for j = n-1 downto 0 do let v = w.(i*n+j) in
      if i <> j && v < f_inf && not (i = 0 && j < dim && v = 1) then r := {ci=i; cj=j; cs=(v land 1 = 0); cc=(v lor 1 - 1)/2} :: !r done done;
    Some !r end
let f_sub dim z w = (* z included in w *)
  let n, m = f_mat dim z in f_close n m;
  f_bad n m || List.for_all (fun c -> c.ci < n && c.cj < n && m.(c.ci*n+c.cj) <= f_enc c || (c.ci = c.cj && f_enc c >= 1)) w
let f_slim dim f =
  let rec go acc = function [] -> List.rev acc | z :: r -> if List.exists (f_sub dim z) acc || List.exists (f_sub dim z) r then go acc r else go (z :: acc) r in go [] f
let f_simpl dim f = f_slim dim (List.filter_map (f_norm dim) f)
'''
def rep(a,b):
    global s
    assert a in s,a
    s=s.replace(a,b,1)
rep('(** val zempty : ',fast+'(** val zempty : ')
rep('''let zempty dim z0 =
  negb (forallb const_ok (zelim dim (zvars z0) z0))''','let zempty dim z0 = f_empty dim z0')
rep('''  fclean dim (flat_map (fun z0 -> map (fun w -> dedup (app z0 w)) g) f)''','''  f_simpl dim (flat_map (fun z0 -> map (fun w -> app z0 w) g) f)''')
rep('''| z0 :: g' -> fsub dim (finter dim f (zcompl z0)) g\'''','''| z0 :: g' -> let rec pieces pre = function [] -> [] | c :: r -> (cneg c :: pre) :: pieces (c :: pre) r in
  let f = List.concat_map (fun z -> if f_empty dim (z @ z0) then [z] else finter dim [z] (pieces [] z0)) f in fsub dim (f_slim dim f) g\'''')
open('model.ml','w').write(s)
