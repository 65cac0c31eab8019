*.vo
*.vok
*.vos
*.glob
.*.aux
Makefile
Makefile.conf
.Makefile.d
.lia.cache
*.pyc
*.nra.cache
.nra.cache
.lia.cache
.nia.cache
