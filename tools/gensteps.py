import sys; sys.path.insert(0,'/verif/tools')
from genrec import gen
F=[("st_type","string","cvar type"),("st_x","vec","reference point"),
("st_s","vec","proposed step; [] stands for None"),("st_sc","vec",""),("st_ss","vec",""),
("st_og_s","vec",""),("st_og_sc","vec",""),("st_og_ss","vec",""),
("st_sg","vec",""),("st_scaling","vec","diagonal of the scaling matrix"),("st_delta","T",""),("st_theta","T",""),
("st_lb","vec",""),("st_ub","vec",""),("st_br","vec",""),("st_minbr","T",""),("st_alpha","T",""),("st_iminbr","list nat",""),
("st_qpval","T",""),("st_shess","mat",""),("st_cg","vec",""),("st_chess","mat",""),
("st_subspace","list vec","columns"),("st_s0","vec",""),("st_ss0","vec",""),
("st_refl","list nat","reflection_indices"),("st_trunc","list nat","truncation_indices"),
("st_posdef","option bool","attribute present only on TRStep2D"),("st_newton","option bool","attribute present only on TRStep2D")]
print(gen("step","mkStep",None,F))
