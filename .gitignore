*.vo
*.vok
*.vos
*.glob
*.aux
.*.aux
*.cache
.lia.cache
.nra.cache
Makefile
Makefile.conf
.Makefile.d
rocq/Makefile*
rocq/.Makefile.d
__pycache__/
