*.vo
*.vos
*.vok
*.glob
*.aux
.*.aux
Makefile
Makefile.conf
.Makefile.d
__pycache__/
*.cache
