rocq/theories/.lia.cache
.nia.cache
*.cache
