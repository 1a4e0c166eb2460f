import sys; sys.path.insert(0,'/verif/tools')
from genrec import gen
F=[("o_heap","list vec","arrays that the code shares and mutates, by reference"),
("o_x","nat","self.x, a reference"),("o_fval","T",""),("o_grad","vec",""),("o_hess","mat",""),
("o_xmin","nat","self.x_min, a reference"),("o_fval_min","T",""),("o_grad_min","vec",""),
("o_delta","T",""),("o_delta_iter","T",""),("o_tr_ratio","T",""),
("o_happ","option (happ T)","self.hessian_update"),
("o_since","Z","iterations_since_tr_update"),("o_ninter","Z","n_intermediate_tr_radius"),
("o_starttime","T",""),("o_iter","Z","iteration"),("o_conv","bool","converged"),("o_flag","exit_flag",""),
("o_hist","history","self.history"),("o_start_id","string",""),
("o_files","list h5group","contents of the history files (outside world)"),
("o_clk","nat","number of time.time() calls so far (outside world)"),
("o_nid","nat","number of uuid1() calls so far (outside world)"),
("o_evals","list (vec * retval)","log of objective calls: argument and result, oldest first (ghost)")]
print(gen("opt","mkOpt",None,F))
