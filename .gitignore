Makefile
Makefile.conf
.Makefile.d
*.vo
*.vok
*.vos
*.glob
*.aux
.*.aux
.lia.cache
.nia.cache
